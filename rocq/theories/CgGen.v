(** The pieces of the code generator meet their specification, given that the recursive
    calls do. *)
From Coq Require Import ZArith List Bool Lia.
From Verif Require Import Base BitLemmas IntSpec IntLemmas IntModel IntTyped IntProofs IntFold
  IntElab IntMain X86 CgModel CgLemmas CgSeq CgSeq2 CgSeq3 CgInv CgTree.
Import ListNotations.
Local Open Scope Z_scope.

Section Gen.
Variable G : genv.
Variable sym : nat -> Z.
Variable env : nat -> Z.
Variable bs : reg -> Z.
Variable P : Z.
Variable mem0 : Z -> Z.
Hypothesis FR : frame_ok G bs P.
Hypothesis CO : cfg_ok (gc G).

Local Notation cgok := (cgok G sym env bs P mem0).
Local Notation place := (place G sym env bs P mem0).
Local Notation good := (good G bs P mem0).
Local Notation spec := (spec G sym bs P mem0).
Local Notation slc := (slc sym).

Definition pre (n : node) (v : Z) : Prop := cgok n /\ teval env n = Some v.

Definition mspec (md : mode) (n : node) (st st' : gst) : Prop :=
  match md with
  | MExpr => spec st st' (pre n) (fun v => plainq (fun m => eqm (wbits n) (rg m AX) v))
  | MVoid => spec st st' (pre n) (fun v => plainq (fun m => True))
  | MCond jc l => snd l < cnt st ->
      spec st st' (fun v => pre n v /\ boolish n = true)
        (fun v j m => j = if Bool.eqb (negb (v =? 0)) jc then Some l else None)
  end.

Definition opt_spec (n : node) (st : gst) (r : outcome (option gst)) : Prop :=
  forall st', r = Ok (Some st') -> mspec MExpr n st st'.

Lemma slc_run code m Q : slc code m Q -> exists j' m', run sym code None m = Some (j', m') /\ pres m m' /\ plainq Q j' m'.
Proof. intros [m' [R [Pr Q']]]. exists None, m'. split; [exact R|]. split; [exact Pr|]. split; auto. Qed.

Lemma after_spec n a st st1 code : mspec MExpr a st st1 -> labels code = [] ->
  (forall v, pre n v -> exists va, pre a va /\ forall m, good m -> eqm (wbits a) (rg m AX) va ->
     slc code m (fun m' => eqm (wbits n) (rg m' AX) v)) ->
  mspec MExpr n st (emit code st1).
Proof.
  intros S L H. eapply spec_emit; [exact S|exact L|]. intros v Hv. destruct (H v Hv) as [va [Pa HQ]].
  exists va. split; [exact Pa|]. intros j m Gm [-> Q]. split; [reflexivity|]. apply slc_run. auto.
Qed.

Lemma code_spec n st code : labels code = [] ->
  (forall v, pre n v -> forall m, good m -> slc code m (fun m' => eqm (wbits n) (rg m' AX) v)) ->
  mspec MExpr n st (emit code st).
Proof. intros L H. apply spec_code; [exact L|]. intros v Hv m Gm. apply slc_run. auto. Qed.

Lemma expr_weak n a st st' : mspec MExpr a st st' ->
  (forall v, pre n v -> exists va, pre a va /\ forall r, eqm (wbits a) r va -> eqm (wbits n) r v) ->
  mspec MExpr n st st'.
Proof.
  intros S H. eapply spec_weak; [exact S|]. intros v Hv. destruct (H v Hv) as [va [Pa HQ]].
  exists va. split; [exact Pa|]. intros j m Gm [-> Q]. split; [reflexivity|]. auto.
Qed.

(** ** Constants, loads *)
Lemma load_val_labels t v : labels (load_val t v) = [].
Proof. unfold load_val. repeat (match goal with |- context [if ?b then _ else _] => destruct b end); reflexivity. Qed.

Lemma load_const n v m : wtn n -> venv env n -> teval env n = Some v ->
  slc (load_val (nty n) (rep64 v)) m (fun m' => eqm (wbits n) (rg m' AX) v).
Proof.
  intros W V T. pose proof (rep64_range v) as R. eapply slc_weak; [apply load_val_ok; exact R|].
  intros m' _ [Q1 Q2]. unfold wbits. destruct (Z.eqb_spec (sz (nty n)) 8) as [E8|N8]; cbn [orb].
  - eapply eqm_trans; [apply Q2; auto|]. apply eqm_rep64. lia.
  - destruct (boolish n) eqn:B.
    + destruct (boolish_val env n v W V B T) as [-> | ->]; (apply Q2; right; vm_compute; split; congruence).
    + eapply eqm_trans; [exact Q1|]. apply eqm_rep64. lia.
Qed.

Lemma labels_load_extend t b o s r c : load_extend_int t b o s r = Ok c -> labels c = [].
Proof. unfold load_extend_int. intros H. bnd H. injection H as <-. destruct a; reflexivity. Qed.
Lemma labels_load_extend64 t b o r c : load_extend_int64 t b o r = Ok c -> labels c = [].
Proof. unfold load_extend_int64. intros H. bnd H. destruct a; try discriminate; injection H as <-; reflexivity. Qed.
Lemma labels_load3 t b o c : load3 t b o = Ok c -> labels c = [].
Proof. unfold load3. intros H. bnd H. eapply labels_load_extend; eauto. Qed.

Lemma ew_bool t : is_ty t -> is_bool t = true -> uns t = true.
Proof. intros T B. destruct (is_ty_inv t T) as [i [-> _]]. destruct i; try discriminate; reflexivity. Qed.

(** A load of an object gives all the bits that matter. *)
Lemma wbits_load n r v : boolish n = is_bool (nty n) -> is_ty (nty n) ->
  eqm 32 r v -> (sz (nty n) = 8 \/ uns (nty n) = true -> eqm 64 r v) -> eqm (wbits n) r v.
Proof.
  intros B T E1 E2. unfold wbits. rewrite B. destruct (Z.eqb_spec (sz (nty n)) 8); cbn [orb]; auto.
  destruct (is_bool (nty n)) eqn:IB; auto. apply E2. right. apply ew_bool; auto.
Qed.

Lemma load_memop n b o st c : is_memop G n = Some (b, o) -> load3 (nty n) b o = Ok c ->
  mspec MExpr n st (emit c st).
Proof.
  intros M L. apply code_spec; [eapply labels_load3; eauto|]. intros v [C T] m Gm.
  destruct (memop_ok G sym env bs P mem0 FR n b o v m M C T Gm) as [S H]. destruct C as [W V K Lp].
  assert (TY := wtn_is_ty n W). eapply slc_weak; [eapply load3_ok; eauto; eapply teval_range; eauto|].
  intros m' _ [Q1 Q2]. apply wbits_load; auto. unfold is_memop in M.
  destruct n; try reflexivity; discriminate.
Qed.

Lemma cast_pre t a v : pre (NCast t a) v -> exists va, pre a va /\ v = conv (ity t) va /\ is_ty t /\
  is_ty (nty a) /\ in_range (ity (nty a)) va.
Proof.
  intros [[W V K L] T]. cbn [wtn venv kenv CgInv.place teval] in *. destruct W as [Tt W].
  destruct (teval env a) as [va|] eqn:TA; [|discriminate]. injection T as <-. exists va.
  split; [split; [constructor; auto|exact TA]|]. split; [reflexivity|]. split; [exact Tt|].
  split; [apply wtn_is_ty; auto|]. eapply teval_range; eauto.
Qed.

Lemma bool_ity t : is_ty t -> is_bool t = false -> ity t <> TBool.
Proof. intros T B E. unfold is_ty in T. rewrite E in T. subst t. discriminate. Qed.
Lemma width_sz t : is_ty t -> is_bool t = false -> iwidth (ity t) = 8 * sz t.
Proof. intros T B. destruct (is_ty_inv t T) as [i [-> E]]. rewrite E. destruct i; try reflexivity; discriminate. Qed.

Lemma wbits_cast t a : is_bool t = false -> wbits (NCast t a) = if sz t =? 8 then 64 else 32.
Proof. intros B. unfold wbits. cbn [nty boolish]. rewrite B, orb_false_r. reflexivity. Qed.

Lemma load_opt_ok n st c : gen_load_opt_gp G n = Ok (Some c) -> mspec MExpr n st (emit c st).
Proof.
  unfold gen_load_opt_gp. intros H. destruct n; try discriminate. rename n into a.
  destruct (is_memop G a) as [[b o]|] eqn:M; [|discriminate].
  assert (HA : forall v, pre (NCast t a) v -> exists va, pre a va /\ v = conv (ity t) va /\ is_ty t /\
       is_ty (nty a) /\ in_range (ity (nty a)) va /\ forall m, good m -> stable b /\ holds sym b o (tysize (nty a)) va m).
  { intros v Hv. destruct (cast_pre t a v Hv) as [va [[Ca Ta] [Ev [Tt [TTa R]]]]]. exists va.
    split; [split; auto|]. do 4 (split; [assumption|]). intros m Gm. eapply memop_ok; eauto. }
  destruct (Z.ltb_spec (sz (nty a)) (sz t)) as [LT|GE].
  - destruct (negb (uns (nty a)) && (sz t =? 8)) eqn:C1.
    + bnd H. injection H as <-. apply andb_true_iff in C1. destruct C1 as [U T8]. apply negb_true_iff in U.
      apply Z.eqb_eq in T8.
      apply code_spec; [eapply labels_load_extend64; eauto|]. intros v Hv m Gm.
      destruct (HA v Hv) as [va [[Ca Ta] [-> [Tt [TTa [R HM]]]]]]. destruct (HM m Gm) as [S HH].
      eapply slc_weak; [eapply (load_extend64_ok sym (nty a) b o va AX); eauto|]. intros m' _ [Q _].
      assert (NBt : is_bool t = false) by (destruct (is_ty_inv t Tt) as [i [-> _]]; destruct i; try reflexivity; discriminate).
      rewrite wbits_cast, T8 by auto. change (8 =? 8) with true. cbv iota.
      eapply eqm_trans; [exact Q|]. apply eqm_sym. replace 64 with (iwidth (ity t)) by (rewrite width_sz; auto; lia).
      apply eqm_conv, bool_ity; auto.
    + destruct (negb ((sz t =? 2) && uns t && negb (uns (nty a)))) eqn:C2; [|discriminate].
      bnd H. injection H as <-. apply code_spec; [eapply labels_load_extend; eauto|]. intros v Hv m Gm.
      destruct (HA v Hv) as [va [[Ca Ta] [-> [Tt [TTa [R HM]]]]]]. destruct (HM m Gm) as [S HH].
      assert (NBt : is_bool t = false).
      { destruct (is_ty_inv t Tt) as [i [-> _]]. destruct i; try reflexivity.
        pose proof (is_ty_size _ TTa) as SZA. cbn in LT. lia. }
      assert (SA8 : (sz (nty a) =? 8) = false) by (apply Z.eqb_neq; pose proof (is_ty_size _ Tt); lia).
      assert (E' : load_extend_int (nty a) b o (if sz (nty a) =? 8 then S8 else S4) AX = Ok a0) by (rewrite SA8; exact E).
      eapply slc_weak; [eapply (load_extend_ok sym (nty a) b o va AX); eauto|]. intros m' _ [Q1 [Q2 _]].
      rewrite wbits_cast by auto. destruct (Z.eqb_spec (sz t) 8) as [E8|N8].
      * assert (U : uns (nty a) = true) by (destruct (uns (nty a)); [reflexivity|discriminate]).
        eapply eqm_trans; [apply Q2; auto|]. apply eqm_sym. replace 64 with (iwidth (ity t)) by (rewrite width_sz; auto; lia).
        apply eqm_conv, bool_ity; auto.
      * eapply eqm_trans; [exact Q1|]. destruct (Z.eq_dec (sz t) 4) as [S4'|N4].
        -- apply eqm_sym. replace 32 with (iwidth (ity t)) by (rewrite width_sz; auto; lia).
           apply eqm_conv, bool_ity; auto.
        -- replace (conv (ity t) va) with va; [apply eqm_refl|]. symmetry. apply conv_id.
           destruct (is_ty_inv t Tt) as [i [Et Ei]]. destruct (is_ty_inv _ TTa) as [j [Ea Ej]].
           rewrite Ei. rewrite Ej in R. rewrite Et, Ea in *. clear - LT C2 R N8 N4 NBt.
           destruct i; try discriminate NBt; cbn in N8, N4, LT; try lia; destruct j; cbn in LT; try lia;
           cbn in C2; try discriminate; unfold in_range, imin, imax in *; cbn in *; lia.
  - destruct (is_bool t) eqn:NBt; cbn [negb] in H; [discriminate|]. bnd H. injection H as <-.
    apply code_spec; [eapply labels_load_extend; eauto|]. intros v Hv m Gm.
    destruct (HA v Hv) as [va [[Ca Ta] [-> [Tt [TTa [R HM]]]]]]. destruct (HM m Gm) as [S HH].
    eapply slc_weak; [eapply (load_extend_ok sym t b o (conv (ity t) va) AX); eauto|].
    + apply conv_range.
    + eapply holds_eqm; [|eapply holds_low; [|exact HH]].
      * unfold tysize. pose proof (is_ty_size _ Tt). rewrite Z2Nat.id by lia. rewrite <- width_sz by auto.
        apply eqm_sym, eqm_conv, bool_ity; auto.
      * unfold tysize. apply Z2Nat.inj_le; auto; [destruct (is_ty_size _ Tt); lia|pose proof (is_ty_size _ TTa); lia].
    + intros m' _ [Q1 [Q2 _]]. apply wbits_load; auto.
Qed.

(** ** Comparisons *)
Definition pre2 (l r : node) : Prop :=
  arith_ty (nty l) /\ nty r = nty l /\ cgok l /\ cgok r /\
  exists x y, teval env l = Some x /\ teval env r = Some y.
Definition qcmp (l r : node) (m : mach) : Prop :=
  forall x y, teval env l = Some x -> teval env r = Some y -> cmpf (ity (nty l)) x y m.

Lemma pre2_swap l r : pre2 l r -> pre2 r l.
Proof. intros [A [B [C [D [x [y [E F]]]]]]]. unfold pre2. rewrite B. split; [auto|]. split; [auto|]. eauto 8. Qed.

Lemma pre2_range l r : pre2 l r -> forall x y, teval env l = Some x -> teval env r = Some y ->
  in_range (ity (nty l)) x /\ in_range (ity (nty l)) y.
Proof.
  intros [A [B [[W V _ _] [[W' V' _ _] _]]]] x y X Y. split; [eapply teval_range; eauto|].
  rewrite <- B. eapply teval_range; eauto.
Qed.

Lemma cgok_is_ty n : cgok n -> is_ty (nty n).
Proof. intros [W _ _ _]. apply wtn_is_ty; auto. Qed.

Variable rec : mode -> node -> gst -> outcome gst.
Hypothesis IH : forall md n st st', rec md n st = Ok st' -> mspec md n st st'.

Lemma labels_imm_cmp s b o v : labels (imm_tmpl_cmp s b o v) = [].
Proof. unfold imm_tmpl_cmp. destruct (_ =? _); [reflexivity|]. destruct (_ =? _); reflexivity. Qed.
Lemma labels_imm_cmp2 s ts op tmp v : labels (imm_cmp s ts op tmp v) = [].
Proof. unfold imm_cmp. destruct (_ =? _); [reflexivity|]. destruct (in_imm_range _); reflexivity. Qed.

Lemma cmp2_ok l r st st1 : gen_cmp_opt_gp2 G rec l r st = Ok (Some st1) ->
  spec st st1 (fun _ => pre2 l r) (fun _ => plainq (qcmp l r)).
Proof.
  unfold gen_cmp_opt_gp2. intros H. bnd H. destruct a as [k|].
  - assert (CV : pre2 l r -> forall y, teval env r = Some y -> k = rep64 y).
    { intros [_ [_ [_ [[W V K _] _]]]] y Y. eapply const_val; eauto. }
    destruct (is_memop G l) as [[b o]|] eqn:M.
    + injection H as <-. apply spec_code; [apply labels_imm_cmp|]. intros v P2 m Gm. apply slc_run.
      pose proof (pre2_range l r P2) as RG.
      pose proof P2 as [A [B [C [D [x [y [X Y]]]]]]].
      destruct (arith_size _ A) as [s [SZ [OS [Bs [NB [NB8 [GS GS8]]]]]]].
      destruct (memop_ok G sym env bs P mem0 FR l b o x m M C X Gm) as [St Hh].
      destruct (RG x y X Y) as [Rx Ry].
      replace (if sz (nty l) =? 8 then CgModel.gsize true else S4) with s by (rewrite <- GS; destruct (sz (nty l) =? 8); reflexivity) || idtac.
      replace (if sz (nty l) =? 8 then S8 else S4) with s by (rewrite <- GS; unfold gsize; destruct (sz (nty l) =? 8); reflexivity).
      rewrite (CV P2 y Y).
      destruct (limit_imm_ok y s (sz (nty l)) SZ ltac:(destruct A; lia)) as [L1 L2].
      eapply slc_weak; [apply (imm_tmpl_cmp_ok sym (ity (nty l)) s b o x y); auto|].
      * replace (nbytes s) with (tysize (nty l)); [exact Hh|]. unfold tysize.
        rewrite nbits_nbytes in NB8. lia.
      * intros m' _ Q x' y' X' Y'. rewrite X in X'. rewrite Y in Y'. injection X' as <-. injection Y' as <-. exact Q.
    + bnd H. injection H as <-. apply IH in E0. eapply spec_emit; [exact E0|apply labels_imm_cmp2|].
      intros v P2. pose proof (pre2_range l r P2) as RG. pose proof P2 as [A [B [C [D [x [y [X Y]]]]]]].
      exists x. split; [split; auto|]. intros j m Gm [-> Q]. split; [reflexivity|]. apply slc_run.
      destruct (arith_size _ A) as [s [SZ [OS [Bs [NB [NB8 [GS GS8]]]]]]]. rewrite OS in E1. injection E1 as <-.
      destruct (RG x y X Y) as [Rx Ry]. rewrite (CV P2 y Y).
      destruct (limit_imm_ok y s (sz (nty l)) SZ ltac:(destruct A; lia)) as [L1 L2].
      eapply slc_weak; [apply (imm_cmp_ok sym (ity (nty l)) s x y); auto|].
      * rewrite NB. apply opnd; auto.
      * intros m' _ Q' x' y' X' Y'. rewrite X in X'. rewrite Y in Y'. injection X' as <-. injection Y' as <-. exact Q'.
  - destruct (is_memop G l) as [[b o]|] eqn:M; [|discriminate].
    bnd H. injection H as <-. apply IH in E0. eapply spec_emit; [exact E0|reflexivity|].
    intros v P2. pose proof (pre2_range l r P2) as RG. pose proof P2 as [A [B [C [D [x [y [X Y]]]]]]].
    exists y. split; [split; auto|]. intros j m Gm [-> Q]. split; [reflexivity|]. apply slc_run.
    destruct (arith_size _ A) as [s [SZ [OS [Bs [NB [NB8 [GS GS8]]]]]]]. rewrite OS in E1. injection E1 as <-.
    destruct (RG x y X Y) as [Rx Ry].
    destruct (memop_ok G sym env bs P mem0 FR l b o x m M C X Gm) as [St Hh].
    eapply slc_weak; [apply (cmp_mem sym (ity (nty l)) s b o x y); auto|].
    + replace (nbytes s) with (tysize (nty l)); [exact Hh|]. unfold tysize. rewrite nbits_nbytes in NB8. lia.
    + rewrite NB. rewrite <- B. apply opnd; [rewrite B; exact A|exact Q].
    + intros m' _ Q' x' y' X' Y'. rewrite X in X'. rewrite Y in Y'. injection X' as <-. injection Y' as <-. exact Q'.
Qed.

(** The flags after a comparison for [o']: the condition code decides [o] or its negation. *)
Definition qflags (o o' : cmpop) (a b : node) (m : mach) : Prop :=
  exists f, fl m = Some f /\ forall flip x y, teval env a = Some x -> teval env b = Some y ->
    cond_holds (cmp_cc (flip_cmp o' flip) (uns (nty a))) f = xorb (c_cmp o x y) flip.

Lemma uns_ity t : arith_ty t -> negb (isigned (ity t)) = uns t.
Proof. intros A. apply arith_inv in A. destruct A as [i [-> [-> [_ [_ [_ ->]]]]]]. rewrite negb_involutive. reflexivity. Qed.

Lemma qcmp_flags o a b m : pre2 a b -> qcmp a b m -> qflags o o a b m.
Proof.
  intros P2 Q. pose proof P2 as [A [B [C [D [x [y [X Y]]]]]]]. destruct (Q x y X Y) as [f [F1 F2]].
  exists f. split; [exact F1|]. intros flip x' y' X' Y'. rewrite X in X'. rewrite Y in Y'.
  injection X' as <-. injection Y' as <-. rewrite <- (uns_ity _ A), F2. apply c_cmp_flip.
Qed.

Lemma cmp_opt_ok o o' a b st st1 : gen_cmp_opt_gp G rec o a b st = Ok (Some (o', st1)) ->
  spec st st1 (fun _ => pre2 a b) (fun _ => plainq (qflags o o' a b)).
Proof.
  unfold gen_cmp_opt_gp. intros H. bnd H. destruct a0 as [s0|].
  - injection H as <- <-. apply cmp2_ok in E. eapply spec_weak; [exact E|]. intros v P2. exists v.
    split; [exact P2|]. intros j m Gm [-> Q]. split; [reflexivity|]. apply qcmp_flags; auto.
  - bnd H. destruct a0 as [s0|]; [|discriminate]. injection H as <- <-. apply cmp2_ok in E0.
    eapply spec_weak; [exact E0|]. intros v P2. exists v. split; [apply pre2_swap; exact P2|].
    intros j m Gm [-> Q]. split; [reflexivity|]. pose proof P2 as [A [B [C [D [x [y [X Y]]]]]]].
    destruct (Q y x Y X) as [f [F1 F2]]. exists f. split; [exact F1|].
    intros flip x' y' X' Y'. rewrite X in X'. rewrite Y in Y'. injection X' as <-. injection Y' as <-.
    rewrite <- (uns_ity _ A), <- B, F2, flip_swap, c_cmp_swap. apply c_cmp_flip.
Qed.

Lemma cmp_plain_ok a b st st1 : gen_cmp_plain G rec a b st = Ok st1 ->
  spec st st1 (fun _ => pre2 a b) (fun _ => plainq (qcmp a b)).
Proof.
  unfold gen_cmp_plain. intros H. bnd H. injection H as <-. apply IH in E, E0. destruct a2 as [r st3].
  cbn [fst snd] in *.
  eapply (spec_push_pop G sym bs P mem0 FR); [exact E|exact E0|exact E1|reflexivity|right; auto|].
  intros v P2. pose proof (pre2_range a b P2) as RG. pose proof P2 as [A [B [C [D [x [y [X Y]]]]]]].
  exists x, y. split; [split; auto|]. split; [split; auto|].
  intros m1 m3 m4 Q1 Q3 _ IT GR OT MM. specialize (IT eq_refl).
  destruct (arith_size _ A) as [s [SZ [OS [Bs [NB [NB8 [GS GS8]]]]]]]. rewrite GS in *.
  rewrite OS in E2. injection E2 as <-. destruct (RG x y X Y) as [Rx Ry].
  assert (C1 : eqm (nbits s) (rg m4 r) x).
  { unfold eqm. unfold getr in GR. rewrite GR. rewrite NB. apply opnd; auto. }
  assert (C2 : eqm (nbits s) (rg m4 AX) y).
  { rewrite OT by (destruct IT as [->|[->|[->|[->|[->| ->]]]]]; discriminate).
    rewrite NB, <- B. apply opnd; [rewrite B; exact A|exact Q3]. }
  destruct (cmp_reg sym (ity (nty a)) s r x y m4 NB Bs Rx Ry C1 C2) as [m' [R' [[P1 P1'] Q']]].
  exists m'. split; [exact R'|]. split; [split; auto|].
  intros x' y' X' Y'. rewrite X in X'. rewrite Y in Y'. injection X' as <-. injection Y' as <-. exact Q'.
Qed.

Lemma ncmp_pre o a b v : pre (NCmp o a b) v -> pre2 a b /\ exists x y, teval env a = Some x /\ teval env b = Some y /\
  v = b2z (c_cmp o x y).
Proof.
  intros [[W V K L] T]. cbn [wtn venv kenv CgInv.place teval] in *.
  destruct W as [A [B [Wa Wb]]]. destruct V, K, L.
  destruct (teval env a) as [x|] eqn:X; [|discriminate]. destruct (teval env b) as [y|] eqn:Y; [|discriminate].
  cbn [opt2] in T. injection T as <-. split; [|eauto].
  split; [exact A|]. split; [exact B|]. split; [constructor; auto|]. split; [constructor; auto|]. eauto.
Qed.

Lemma setcc_spec o o' a b st st1 : spec st st1 (fun _ => pre2 a b) (fun _ => plainq (qflags o o' a b)) ->
  mspec MExpr (NCmp o a b) st (emit (gen_cmp_setcc o' (uns (nty a))) st1).
Proof.
  intros S. eapply spec_emit; [exact S|reflexivity|]. intros v Hv. exists 0.
  destruct (ncmp_pre o a b v Hv) as [P2 [x [y [X [Y ->]]]]]. split; [exact P2|].
  intros j m Gm [-> [f [F1 F2]]]. split; [reflexivity|]. apply slc_run.
  eapply slc_weak; [apply setcc_ok; exact F1|]. intros m' _ Q. rewrite wbits_boolish by reflexivity.
  specialize (F2 false x y X Y). cbn [flip_cmp] in F2. rewrite xorb_false_r in F2. rewrite <- F2. exact Q.
Qed.

(** ** Casts *)
Lemma gen_cmp_zero_ok a o st st' n : gen_cmp_zero G rec a o st = Ok st' -> o = CEq \/ o = CNe ->
  (forall v, pre n v -> exists va, pre a va /\ v = b2z (c_cmp o va 0)) -> mspec MExpr n st st'.
Proof.
  unfold gen_cmp_zero. intros H Ho HP. bnd H. apply IH in H. eapply expr_weak; [exact H|].
  intros v Hv. destruct (HP v Hv) as [va [[Ca Ta] ->]].
  destruct (cmp_zero_ok G sym env bs P mem0 CO o a a0 E Ho Ca) as [CC TT].
  exists (b2z (c_cmp o va 0)). split; [split; [exact CC|apply TT; exact Ta]|].
  intros r Q. rewrite wbits_boolish in Q by reflexivity. apply eqm_le64. exact Q.
Qed.

Lemma cast_labels a b : labels (cast_table a b) = [].
Proof. destruct a, b; reflexivity. Qed.

Lemma gen_cast_ok t a st st' : gen_cast G rec t a st = Ok st' -> mspec MExpr (NCast t a) st st'.
Proof.
  unfold gen_cast. intros H. destruct (is_bool t) eqn:B.
  - eapply gen_cmp_zero_ok; [exact H|auto|]. intros v Hv. destruct (cast_pre t a v Hv) as [va [Pa [-> [Tt _]]]].
    exists va. split; [exact Pa|]. unfold is_ty in Tt. destruct (ity t) eqn:Ei; subst t; try discriminate.
    cbn [c_cmp]. apply conv_bool.
  - bnd H. injection H as <-. apply IH in E. eapply after_spec; [exact E|apply cast_labels|].
    intros v Hv. destruct (cast_pre t a v Hv) as [va [Pa [-> [Tt [TTa R]]]]]. exists va. split; [exact Pa|].
    intros m Gm Q. eapply slc_weak; [apply (cast_ok sym (nty a) t va); auto|].
    + eapply eqm_le; [|exact Q]. destruct (wbits_cases a) as [-> | ->]; lia.
    + intros F. unfold wbits in Q. destruct F as [F|F].
      * rewrite F in Q. exact Q.
      * rewrite (bool_boolish a F), orb_true_r in Q. exact Q.
    + intros m' _ [Q1 Q2]. rewrite wbits_cast by auto. destruct (Z.eqb_spec (sz t) 8); auto.
Qed.

(** ** Arithmetic with constants and memory operands *)
Lemma labels_imm_arith2 i s op tmp v : labels (imm_arith2 i s op tmp v) = [].
Proof. unfold imm_arith2. destruct (in_imm_range v); reflexivity. Qed.

Lemma labels_imm_add s op tmp v : labels (imm_add s op tmp v) = [].
Proof.
  unfold imm_add. destruct (v =? 0); [reflexivity|]. destruct (v =? 1); [reflexivity|].
  destruct (v =? -1); [reflexivity|]. apply labels_imm_arith2.
Qed.

Lemma labels_imm_arith o n v c : imm_arith o n v = Ok c -> labels c = [].
Proof.
  unfold imm_arith. intros H. bnd H. destruct o; cbn in E0; try discriminate E0.
  - injection H as <-. apply labels_imm_add.
  - injection H as <-. unfold imm_sub. destruct (v =? 0); [reflexivity|]. destruct (v =? 1); [reflexivity|].
    destruct (v =? -1); [reflexivity|]. apply labels_imm_arith2.
  - destruct (v =? 0); [injection H as <-; reflexivity|]. destruct ((v =? 1) && true); [injection H as <-; reflexivity|].
    destruct (v =? -1); [injection H as <-; reflexivity|].
    destruct (if is_pow_of_two v then _ else _); injection H as <-; [reflexivity|apply labels_imm_arith2].
  - injection H as <-. unfold imm_and. destruct (v =? 0); [reflexivity|]. destruct (v =? -1); [reflexivity|].
    apply labels_imm_arith2.
  - destruct (v =? 0); [injection H as <-; reflexivity|]. destruct ((v =? 1) && false); [injection H as <-; reflexivity|].
    destruct (v =? -1); injection H as <-; [reflexivity|apply labels_imm_arith2].
  - destruct (v =? 0); [injection H as <-; reflexivity|]. destruct ((v =? 1) && false); [injection H as <-; reflexivity|].
    destruct (v =? -1); injection H as <-; [reflexivity|apply labels_imm_arith2].
Qed.

Definition qalu (o : binop) (n : Z) (l r : node) (m : mach) : Prop :=
  forall x y, teval env l = Some x -> teval env r = Some y -> eqm (8 * n) (rg m AX) (alu_fun o x y).

Lemma arith2_ok o n l r p st st1 : n = 4 \/ n = 8 -> gen_arith_opt_gp2 G rec o n l r p st = Ok (Some st1) ->
  spec st st1 (fun _ => pre2 l r /\ n <= sz (nty l)) (fun _ => plainq (qalu o n l r)).
Proof.
  intros HN H. unfold gen_arith_opt_gp2 in H. bnd H.
  assert (exists s, a = s /\ big s /\ nbits s = 8 * n) as [s [-> [Bs NB]]].
  { destruct (size_big n a E ltac:(lia)) as [A B]. eauto. }
  assert (SO : simple o) by (split; intros ->; discriminate).
  (* reduce to a fact about the code placed after the left operand *)
  assert (AF : forall c, labels c = [] ->
     (forall x y m, pre2 l r -> n <= sz (nty l) -> teval env l = Some x -> teval env r = Some y -> good m ->
        eqm (8 * n) (rg m AX) x -> slc c m (fun m' => eqm (8 * n) (rg m' AX) (alu_fun o x y))) ->
     forall st0, rec MExpr l st = Ok st0 ->
     spec st (emit c st0) (fun _ => pre2 l r /\ n <= sz (nty l)) (fun _ => plainq (qalu o n l r))).
  { intros c L HC st0 R0. apply IH in R0. eapply spec_emit; [exact R0|exact L|].
    intros v [P2 NS]. pose proof P2 as [A [B [C [D [x [y [X Y]]]]]]]. exists x. split; [split; auto|].
    intros j m Gm [-> Q]. split; [reflexivity|]. apply slc_run.
    eapply slc_weak; [apply (HC x y m); auto|].
    - eapply eqm_le; [|apply opnd; eauto]. destruct (arith_size _ A) as [s' [_ [_ [_ [N1 [N2 _]]]]]]. lia.
    - intros m' _ Q' x' y' X' Y'. rewrite X in X'. rewrite Y in Y'. injection X' as <-. injection Y' as <-. exact Q'. }
  assert (MEMC : forall b ofs, (forall x y m, pre2 l r -> n <= sz (nty l) -> teval env l = Some x ->
        teval env r = Some y -> good m -> exists z, holds sym b ofs (nbytes s) z m /\ eqm (8 * n) z y) ->
     forall st0, rec MExpr l st = Ok st0 ->
     spec st (emit [Alu a0 None (M b ofs) (R s AX)] st0) (fun _ => pre2 l r /\ n <= sz (nty l)) (fun _ => plainq (qalu o n l r))).
  { intros b ofs HM st0 R0. apply AF; [reflexivity| |exact R0]. intros x y m P2 NS X Y Gm EX.
    destruct (HM x y m P2 NS X Y Gm) as [z [HZ EZ]].
    assert (OM : osize None [M b ofs; R s AX] = Some s) by (destruct Bs as [-> | ->]; reflexivity).
    eapply slc_weak; [exact (alu_ax sym o a0 s (M b ofs) _ m E0 Bs OM eq_refl (rd_mem sym s b ofs z m HZ))|].
    - intros m' _ Q. rewrite NB in Q. eapply eqm_trans; [exact Q|]. apply alu_fun_eqm; auto; [lia|].
      eapply eqm_trans; [apply eqm_mod; lia|exact EZ]. }
  assert (TSZ : forall t, is_ty t -> n <= sz t -> (nbytes s <= tysize t)%nat).
  { intros t Tt L. unfold tysize. rewrite nbits_nbytes in NB. lia. }
  destruct p as [|[|[|p]]].
  - bnd H. destruct a as [k|]; [|discriminate]. bnd H. injection H as <-.
    eapply AF; [eapply labels_imm_arith; eauto| |reflexivity].
    intros x y m P2 NS X Y Gm EX. pose proof P2 as [A [B [C [[W V K L] _]]]].
    rewrite (const_val G env r k W V K E1 y Y) in E3.
    destruct (limit_imm_ok y s n E ltac:(lia)) as [L1 L2].
    eapply slc_weak; [eapply imm_arith_ok; eauto; lia|]. intros m' _ Q. rewrite NB in *.
    eapply eqm_trans; [exact Q|]. apply alu_fun_eqm; auto. lia.
  - destruct (is_memop G r) as [[b ofs]|] eqn:M; [|discriminate]. bnd H. injection H as <-. apply MEMC; auto.
    intros x y m P2 NS X Y Gm. pose proof P2 as [A [B [C [D _]]]]. exists y. split; [|apply eqm_refl].
    destruct (memop_ok G sym env bs P mem0 FR r b ofs y m M D Y Gm) as [St Hh].
    eapply holds_low; [|exact Hh]. apply TSZ; [apply cgok_is_ty; auto|congruence].
  - destruct r as [| | | | | | | | | | | | | | | |t ra]; try discriminate.
    destruct (is_memop G ra) as [[b ofs]|] eqn:M; [|discriminate].
    destruct (Z.leb_spec n (sz (nty ra))) as [LE|]; [|discriminate]. bnd H. injection H as <-. apply MEMC; auto.
    intros x y m P2 NS X Y Gm. pose proof P2 as [A [B [C [D _]]]].
    destruct (cast_pre t ra y (conj D Y)) as [ya [[Ca Ta] [-> [Tt [TTa R]]]]].
    destruct (memop_ok G sym env bs P mem0 FR ra b ofs ya m M Ca Ta Gm) as [St Hh].
    exists ya. split; [eapply holds_low; [|exact Hh]; apply TSZ; auto|].
    cbn [nty] in B. rewrite <- B in A, NS. apply eqm_sym. apply (eqm_le (iwidth (ity t))).
    + rewrite width_sz; auto using arith_nobool. lia.
    + apply eqm_conv, bool_ity; auto using arith_nobool.
  - destruct r as [| | | | | | | | | | | | | | | |t ra]; try discriminate.
    destruct (is_memop G ra) as [[b ofs]|] eqn:M; [|discriminate].
    destruct (Z.ltb_spec (sz (nty ra)) n) as [LT|]; [|discriminate]. bnd H. injection H as <-.
    assert (LB : labels a1 = []).
    { destruct (negb (uns (nty ra)) && (n =? 8)); bnd E2; injection E2 as <-; rewrite labels_app;
      [rewrite (labels_load_extend64 _ _ _ _ _ E3)|rewrite (labels_load_extend _ _ _ _ _ _ E3)]; reflexivity. }
    eapply AF; [exact LB| |reflexivity].
    intros x y m P2 NS X Y Gm EX. pose proof P2 as [A [B [C [D _]]]].
    destruct (cast_pre t ra y (conj D Y)) as [ya [[Ca Ta] [-> [Tt [TTa RA]]]]].
    destruct (memop_ok G sym env bs P mem0 FR ra b ofs ya m M Ca Ta Gm) as [St Hh].
    cbn [nty] in B. rewrite <- B in A, NS.
    assert (EY : eqm (8 * n) ya (conv (ity t) ya)).
    { apply eqm_sym. apply (eqm_le (iwidth (ity t))).
      - rewrite width_sz; auto using arith_nobool. lia.
      - apply eqm_conv, bool_ity; auto using arith_nobool. }
    assert (FIN : forall m1, pres m m1 -> eqm (8 * n) (rg m1 DX) ya -> rg m1 AX = rg m AX ->
       slc [Alu a0 None (R s DX) (R s AX)] m1 (fun m' => eqm (8 * n) (rg m' AX) (alu_fun o x (conv (ity t) ya)))).
    { intros m1 _ ED EA. rewrite <- NB in ED.
      assert (OM : osize None [R s DX; R s AX] = Some s) by (destruct Bs as [-> | ->]; reflexivity).
      eapply slc_weak; [exact (alu_ax sym o a0 s (R s DX) _ m1 E0 Bs OM eq_refl (rd_reg sym s DX ya m1 ED))|].
      - intros m' _ Q. rewrite NB in Q. eapply eqm_trans; [exact Q|]. rewrite EA. apply alu_fun_eqm; auto; [lia|].
        eapply eqm_trans; [apply eqm_mod; lia|exact EY]. }
    assert (S8' : (sz (nty ra) =? 8) = false) by (apply Z.eqb_neq; lia).
    destruct (negb (uns (nty ra)) && (n =? 8)) eqn:C1; bnd E2; injection E2 as E2; rewrite <- E2.
    + apply andb_true_iff in C1. destruct C1 as [U N8]. apply negb_true_iff in U. apply Z.eqb_eq in N8.
      eapply slc_app; [eapply (load_extend64_ok sym (nty ra) b ofs ya DX); eauto|].
      intros m1 P1 [Q1 Q2]. apply FIN; auto. rewrite N8. exact Q1.
    + assert (E' : load_extend_int (nty ra) b ofs (if sz (nty ra) =? 8 then S8 else S4) DX = Ok a2) by (rewrite S8'; exact E3).
      eapply slc_app; [eapply (load_extend_ok sym (nty ra) b ofs ya DX); eauto|].
      intros m1 P1 [Q1 [Q2 Q3]]. apply FIN; auto. destruct HN as [-> | ->]; [exact Q1|].
      apply Q2. right. destruct (uns (nty ra)); [reflexivity|discriminate].
Qed.

Lemma alu_comm o x y : o = BAdd \/ o = BMul \/ o = BAnd \/ o = BOr \/ o = BXor -> alu_fun o x y = alu_fun o y x.
Proof.
  intros [-> | [-> | [-> | [-> | ->]]]]; cbn [alu_fun];
  [apply Z.add_comm|apply Z.mul_comm|apply Z.land_comm|apply Z.lor_comm|apply Z.lxor_comm].
Qed.

Lemma orelse_some a b st : orelse a b = Ok (Some st) -> a = Ok (Some st) \/ (a = Ok None /\ b = Ok (Some st)).
Proof. unfold orelse. intros H. bnd H. destruct a0; [left; exact H|right; auto]. Qed.

Lemma arith_opt_ok o t l r n st st1 : n = 4 \/ n = 8 -> gen_arith_opt_gp G rec (NBin o t l r) n st = Ok (Some st1) ->
  simple o /\ spec st st1 (fun _ => pre2 l r /\ n <= sz (nty l)) (fun _ => plainq (qalu o n l r)).
Proof.
  intros HN H. unfold gen_arith_opt_gp in H.
  assert (ONE : forall p, gen_arith_opt_gp2 G rec o n l r p st = Ok (Some st1) ->
     spec st st1 (fun _ => pre2 l r /\ n <= sz (nty l)) (fun _ => plainq (qalu o n l r))).
  { intros p E. eapply arith2_ok; eauto. }
  assert (BOTH : (o = BAdd \/ o = BMul \/ o = BAnd \/ o = BOr \/ o = BXor) ->
     forall p, orelse (gen_arith_opt_gp2 G rec o n l r p st) (gen_arith_opt_gp2 G rec o n r l p st) = Ok (Some st1) ->
     spec st st1 (fun _ => pre2 l r /\ n <= sz (nty l)) (fun _ => plainq (qalu o n l r))).
  { intros OC p E. apply orelse_some in E. destruct E as [E|[_ E]]; [eapply ONE; eauto|].
    apply arith2_ok in E; auto. eapply spec_weak; [exact E|]. intros v [P2 NS]. exists v.
    split; [split; [apply pre2_swap; exact P2|destruct P2 as [_ [B _]]; rewrite B; exact NS]|].
    intros j m Gm [-> Q]. split; [reflexivity|]. intros x y X Y. rewrite alu_comm by exact OC. apply Q; auto. }
  destruct o; try discriminate H; (split; [split; discriminate|]);
  cbv beta zeta in H;
  repeat first [eapply ONE; exact H | eapply BOTH; [|exact H]; auto 6
               | apply orelse_some in H; destruct H as [H|[_ H]]].
Qed.

Lemma nbin_pre o t a b v : pre (NBin o t a b) v -> pre2 a b /\ arith_ty t /\ nty a = t /\
  exists x y, teval env a = Some x /\ teval env b = Some y /\ c_bin o (ity t) x y = Some v.
Proof.
  intros [[W V K L] T]. cbn [wtn venv kenv CgInv.place teval] in *.
  destruct W as [A [Ba [Bb [Wa Wb]]]]. destruct V, K, L.
  destruct (teval env a) as [x|] eqn:X; [|discriminate]. destruct (teval env b) as [y|] eqn:Y; [|discriminate].
  cbn [opt2] in T. split; [|split; [exact A|split; [exact Ba|eauto]]].
  split; [rewrite Ba; exact A|]. split; [congruence|]. split; [constructor; auto|]. split; [constructor; auto|]. eauto.
Qed.

Lemma nbin_wbits o t a b : arith_ty t -> wbits (NBin o t a b) = iwidth (ity t).
Proof. intros A. apply (wbits_arith (NBin o t a b) A). reflexivity. Qed.

Lemma arith_expr o t a b st st1 : gen_arith_opt_gp G rec (NBin o t a b) (sz t) st = Ok (Some st1) ->
  sz t = 4 \/ sz t = 8 -> mspec MExpr (NBin o t a b) st st1.
Proof.
  intros H HN. apply arith_opt_ok in H; auto. destruct H as [SO H]. eapply spec_weak; [exact H|].
  intros v Hv. destruct (nbin_pre o t a b v Hv) as [P2 [A [Ba [x [y [X [Y CB]]]]]]]. exists v.
  split; [split; [exact P2|rewrite Ba; lia]|]. intros j m Gm [-> Q]. split; [reflexivity|].
  rewrite nbin_wbits by auto. specialize (Q x y X Y).
  pose proof (arith_nobool _ A) as NBl. rewrite <- width_sz in Q by (auto; apply A).
  eapply eqm_trans; [exact Q|]. apply c_bin_alu; auto. apply bool_ity; auto; apply A.
Qed.

(** ** Shifts *)
Lemma shift_pre (o : xsh) n t a b v :
  n = match o with XShl => NShl t a b | XShr => NShr t a b | XSar => NSar t a b end ->
  pre n v -> arith_ty t /\ nty a = t /\ cgok a /\ cgok b /\ wbits n = iwidth (ity t) /\
  exists x y, teval env a = Some x /\ teval env b = Some y /\ in_range (ity t) x /\
   match o with
   | XShl => c_shift true (ity t) x y = Some v
   | XShr => 0 <= x /\ c_shift false (ity t) x y = Some v
   | XSar => isigned (ity t) = true /\ c_shift false (ity t) x y = Some v
   end.
Proof.
  intros -> [[W V K L] T].
  assert (AT : arith_ty t) by (destruct o; cbn [wtn] in W; tauto).
  assert (WB : wbits match o with XShl => NShl t a b | XShr => NShr t a b | XSar => NSar t a b end = iwidth (ity t)).
  { destruct o; [apply (wbits_arith (NShl t a b) AT)|apply (wbits_arith (NShr t a b) AT)|apply (wbits_arith (NSar t a b) AT)]; reflexivity. }
  assert (TA : nty a = t) by (destruct o; cbn [wtn] in W; tauto).
  assert (WA : wtn a /\ wtn b) by (destruct o; cbn [wtn] in W; tauto).
  assert (VA : venv env a /\ venv env b) by (destruct o; exact V).
  assert (KA : kenv (gc G) env a /\ kenv (gc G) env b) by (destruct o; exact K).
  assert (LA : place a /\ place b) by (destruct o; exact L).
  split; [exact AT|]. split; [exact TA|]. split; [constructor; tauto|]. split; [constructor; tauto|].
  split; [exact WB|].
  assert (exists x y, teval env a = Some x /\ teval env b = Some y) as [x [y [X Y]]].
  { destruct o; cbn [teval] in T; destruct (teval env a); try discriminate; destruct (teval env b); try discriminate; eauto. }
  exists x, y. split; [exact X|]. split; [exact Y|].
  split. { rewrite <- TA. eapply teval_range; eauto; tauto. }
  destruct o; cbn [teval] in T; rewrite X, Y in T; cbn [opt2] in T.
  - exact T.
  - destruct (Z.ltb_spec x 0); [discriminate|]. split; [lia|exact T].
  - split; [|exact T]. apply arith_inv in AT. destruct AT as [i [_ [-> [_ [_ [_ ->]]]]]].
    cbn [wtn] in W. destruct W as [_ [_ [-> _]]]. reflexivity.
Qed.

Lemma sh_zero o s a : eqm (nbits s) a (sh_res o s (a mod 2 ^ nbits s) 0).
Proof.
  pose proof (nbits_pos s) as NP. unfold sh_res. change (2 ^ 0) with 1. rewrite Z.mul_1_r, !Z.div_1_r.
  assert (E : eqm (nbits s) a (a mod 2 ^ nbits s)) by (apply eqm_sym, eqm_mod; lia).
  destruct o; auto. unfold sgn. destruct (_ <? _); auto. unfold eqm in *. rewrite E at 1.
  replace (a mod 2 ^ nbits s - 2 ^ nbits s) with (a mod 2 ^ nbits s + (-1) * 2 ^ nbits s) by lia.
  rewrite Z.mod_add by (pose proof (pow2_pos (nbits s)); lia). reflexivity.
Qed.

Lemma low8 q y : eqm 8 (q * 2 ^ 8 + y mod 2 ^ 8) y.
Proof. unfold eqm. rewrite Z.add_comm, Z.mod_add by lia. apply Z.mod_mod. lia. Qed.

Lemma cl_mem b o y m : holds sym b o 1 y m ->
  slc [Mov (Some S1) (M b o) (R S1 CX)] m (fun m' => eqm 8 (rg m' CX) y /\ rg m' AX = rg m AX).
Proof.
  intros H. xgo. split; [|reflexivity]. unfold holds in H. rewrite H.
  change (8 * Z.of_nat 1) with 8. eapply eqm_trans; [apply low8|]. apply eqm_mod. lia.
Qed.

Lemma cl_al y m : eqm 8 (rg m AX) y ->
  slc [Mov None (R S1 AX) (R S1 CX)] m (fun m' => eqm 8 (rg m' CX) y).
Proof.
  intros H. xgo. eapply eqm_trans; [apply low8|]. eapply eqm_trans; [|exact H]. apply eqm_mod. cbn. lia.
Qed.

Lemma shift_opt_ok o n t a b st :
  n = match o with XShl => NShl t a b | XShr => NShr t a b | XSar => NSar t a b end ->
  opt_spec n st (gen_shift_opt_gp G rec o t a b st).
Proof.
  intros EN st' H. unfold gen_shift_opt_gp in H. bnd H.
  assert (HP : forall v, pre n v -> exists x y, pre a x /\ pre b y /\ big a0 /\ nbits a0 = wbits n /\
     iwidth (ity (nty a)) = nbits a0 /\ arith_ty (nty a) /\ 0 <= y < nbits a0 /\
     forall z, eqm (nbits a0) z x -> eqm (nbits a0) (sh_res o a0 (z mod 2 ^ nbits a0) y) v).
  { intros v Hv. destruct (shift_pre o n t a b v EN Hv) as [A [Ta [Ca [Cb [WB [x [y [X [Y [Rx SH]]]]]]]]]].
    destruct (arith_size _ A) as [s [SZ [OS [Bs [NB [NB8 _]]]]]]. rewrite SZ in E. injection E as <-.
    assert (NT : ity t <> TBool) by (apply bool_ity; [apply A|apply arith_nobool; auto]).
    exists x, y. split; [split; auto|]. split; [split; auto|]. split; [exact Bs|]. split; [congruence|].
    split; [congruence|]. split; [congruence|]. split.
    - exact (proj1 (sh_val o (ity t) s x y v x NB Rx NT (eqm_refl _ _) SH)).
    - intros z EZ. exact (proj2 (sh_val o (ity t) s x y v z NB Rx NT EZ SH)). }
  destruct a1 as [k|].
  - bnd H. injection H as <-. apply IH in E1. eapply after_spec; [exact E1| |].
    { unfold imm_shift in E2. bnd E2. destruct (k =? 0); [injection E2 as <-; reflexivity|].
      destruct (in_imm_range k); [injection E2 as <-; reflexivity|discriminate]. }
    intros v Hv. destruct (HP v Hv) as [x [y [Pa [[[Wb Vb Kb Lb] Tb] [Bs [NB [IW [A [Hy SH]]]]]]]]].
    exists x. split; [exact Pa|]. intros m Gm Q. pose proof (opnd a _ _ A Q) as Q'. rewrite IW in Q'.
    pose proof (const_val G env b k Wb Vb Kb E0 y Tb) as ->.
    assert (RY : rep64 y = y) by (apply rep64_id; destruct Bs as [-> | ->]; cbn in Hy; unfold two63; lia).
    rewrite RY in E2. unfold imm_shift in E2. rewrite E in E2. cbn [bind] in E2. rewrite <- NB.
    destruct (Z.eqb_spec y 0) as [Y0|NY].
    + injection E2 as <-. apply slc_nil. eapply eqm_trans; [|exact (SH _ Q')]. subst y. apply sh_zero.
    + destruct (in_imm_range y); [|discriminate]. injection E2 as <-.
      eapply slc_weak; [apply sh_imm_ok; auto|]. intros m' _ ->.
      eapply eqm_trans; [apply eqm_mod; pose proof (nbits_pos a0); lia|]. exact (SH _ Q').
  - destruct (is_memop G b) as [[mb ofs]|] eqn:M; [|discriminate]. bnd H. injection H as <-. apply IH in E1.
    eapply after_spec; [exact E1|reflexivity|].
    intros v Hv. destruct (HP v Hv) as [x [y [Pa [[Cb Tb] [Bs [NB [IW [A [Hy SH]]]]]]]]].
    exists x. split; [exact Pa|]. intros m Gm Q. pose proof (opnd a _ _ A Q) as Q'. rewrite IW in Q'.
    destruct (memop_ok G sym env bs P mem0 FR b mb ofs y m M Cb Tb Gm) as [St Hh].
    assert (H1 : holds sym mb ofs 1 y m).
    { eapply holds_low; [|exact Hh]. pose proof (is_ty_size _ (cgok_is_ty _ Cb)). unfold tysize. lia. }
    rewrite <- NB.
    change ([?i; ?j]) with ([i] ++ [j]). eapply slc_app.
    + apply (cl_mem mb ofs y m H1).
    + intros m1 _ [Q1 Q2]. eapply slc_weak; [apply (sh_cl sym o a0 y); auto|]. intros m' _ ->.
      eapply eqm_trans; [apply eqm_mod; pose proof (nbits_pos a0); lia|]. unfold getr. rewrite Q2. exact (SH _ Q').
Qed.

Lemma shift_ok o n t a b st st' :
  n = match o with XShl => NShl t a b | XShr => NShr t a b | XSar => NSar t a b end ->
  gen_shift G rec o t a b st = Ok st' -> mspec MExpr n st st'.
Proof.
  intros EN H. unfold gen_shift in H. bnd H. injection H as <-. apply IH in E, E0. destruct a3 as [r st3].
  cbn [fst snd] in *.
  assert (E0' : spec (push a0) (emit [Mov None (R S1 AX) (R S1 CX)] a1) (pre b)
            (fun v => plainq (fun m => eqm 8 (rg m CX) v))).
  { eapply spec_emit; [exact E0|reflexivity|]. intros v Hv. exists v. split; [exact Hv|].
    intros j m Gm [-> Q]. split; [reflexivity|]. apply slc_run. apply cl_al.
    eapply eqm_le; [|exact Q]. destruct (wbits_cases b) as [-> | ->]; lia. }
  eapply (spec_push_pop G sym bs P mem0 FR); [exact E|exact E0'|exact E2|reflexivity|left; auto|].
  intros v Hv. destruct (shift_pre o n t a b v EN Hv) as [A [Ta [Ca [Cb [WB [x [y [X [Y [Rx SH]]]]]]]]]].
  destruct (arith_size _ A) as [s [SZ [OS [Bs [NB [NB8 [GS GS8]]]]]]]. rewrite GS in *.
  rewrite OS in E1. injection E1 as <-.
  assert (NT : ity t <> TBool) by (apply bool_ity; [apply A|apply arith_nobool; auto]).
  exists x, y. split; [split; auto|]. split; [split; auto|].
  intros m1 m3 m4 Q1 Q3 RA _ GR OT MM. specialize (RA eq_refl). subst r.
  assert (C1 : eqm (nbits s) (rg m4 AX) x).
  { unfold eqm. unfold getr in GR. rewrite GR. rewrite NB, <- Ta. apply opnd; [rewrite Ta|]; auto. }
  assert (C2 : eqm 8 (rg m4 CX) y) by (rewrite OT by discriminate; exact Q3).
  destruct (sh_val o (ity t) s x y v _ NB Rx NT C1 SH) as [Hy SV].
  destruct (sh_cl sym o s y m4 Bs Hy C2) as [m' [R' [[P1 P1'] Q']]].
  exists m'. split; [exact R'|]. split; [split; auto|]. rewrite WB, <- NB, Q'.
  eapply eqm_trans; [apply eqm_mod; pose proof (nbits_pos s); lia|exact SV].
Qed.

(** ** Binary operators *)
Lemma binary_ok o t a b st st' : gen_binary G rec o t a b st = Ok st' -> mspec MExpr (NBin o t a b) st st'.
Proof.
  unfold gen_binary. intros H. bnd H. destruct a2 as [r st3]. injection H as <-. apply IH in E, E0.
  eapply (spec_push_pop G sym bs P mem0 FR); [exact E|exact E0|exact E1| |right; auto|].
  { destruct o; try reflexivity; destruct (uns t), (sz (nty a) =? 8); reflexivity. }
  intros v Hv. destruct (nbin_pre o t a b v Hv) as [P2 [A [Ta [x [y [X [Y CB]]]]]]].
  pose proof (pre2_range a b P2 x y X Y) as [Rx Ry]. pose proof P2 as [Aa [Tb [Ca [Cb _]]]].
  destruct (arith_size _ A) as [s [SZ [OS [Bs [NB [NB8 [GS GS8]]]]]]]. rewrite Ta in *. rewrite GS, GS8 in *.
  exists x, y. split; [split; auto|]. split; [split; auto|].
  intros m1 m3 m4 Q1 Q3 _ IT GR OT MM. specialize (IT eq_refl).
  assert (C1 : eqm (nbits s) (rg m4 r) x).
  { unfold eqm. unfold getr in GR. rewrite GR. rewrite NB, <- Ta. apply opnd; [rewrite Ta|]; auto. }
  assert (C2 : eqm (nbits s) (rg m4 AX) y).
  { rewrite OT by (destruct IT as [->|[->|[->|[->|[->| ->]]]]]; discriminate).
    rewrite NB, <- Tb. apply opnd; [rewrite Tb; exact A|exact Q3]. }
  assert (NT : ity t <> TBool) by (apply bool_ity; [apply A|apply arith_nobool; auto]).
  destruct (bin_tail sym o (ity t) s r x y v m4 NB Bs NT IT Rx Ry C1 C2 CB) as [m' [R' [P' Q']]].
  exists m'. split; [|split; [exact P'|rewrite nbin_wbits, <- NB by auto; exact Q']].
  rewrite (uns_ity _ A) in R'. exact R'.
Qed.

(** ** Division by constants *)
Lemma divmod_struct d t e v st st' : divmod_opt rec d t e v st = Ok (Some st') ->
  exists st1 code, rec MExpr e st = Ok st1 /\ st' = emit code st1 /\ labels code = [].
Proof.
  unfold divmod_opt. intros H. bnd H.
  assert (AF : forall l, labels l = [] -> (do st1 <- rec MExpr e st; Ok (Some (emit l st1))) = Ok (Some st') ->
     exists st1 code, rec MExpr e st = Ok st1 /\ st' = emit code st1 /\ labels code = []).
  { intros l L E1. bnd E1. injection E1 as <-. eauto. }
  assert (IA : forall s v', labels (imm_and s AX DX v') = []).
  { intros s v'. unfold imm_and. destruct (v' =? 0); [reflexivity|]. destruct (v' =? -1); [reflexivity|]. apply labels_imm_arith2. }
  destruct (v =? 1); [eapply AF; [|exact H]; destruct d; reflexivity|].
  destruct (v =? -1).
  { destruct (negb (uns t)); [eapply AF; [|exact H]; destruct d; reflexivity|].
    destruct d; (eapply AF; [|exact H]); reflexivity. }
  destruct (if d && is_pow_of_two v && uns t then _ else _); [eapply AF; [|exact H]; reflexivity|].
  destruct (negb d && _ && _ && _); [|discriminate].
  destruct (_ =? _); [eapply AF; [|exact H]; reflexivity|].
  destruct (_ <=? _); (eapply AF; [|exact H]); [reflexivity|apply IA].
Qed.

Lemma emit_inj c c' st : emit c st = emit c' st -> c = c'.
Proof. unfold emit. intros [= E]. eapply app_inv_head; eauto. Qed.

Lemma divmod_expr d t a b k st st' : const_of G b = Ok (Some k) -> divmod_opt rec d t a k st = Ok (Some st') ->
  mspec MExpr (NBin (if d then BDiv else BMod) t a b) st st'.
Proof.
  intros EK H. destruct (divmod_struct d t a k st st' H) as [st1 [code [R1 [-> L]]]].
  eapply after_spec; [apply IH; exact R1|exact L|]. intros v Hv.
  destruct (nbin_pre _ t a b v Hv) as [P2 [A [Ta [x [y [X [Y CB]]]]]]].
  pose proof (pre2_range a b P2 x y X Y) as [Rx Ry]. pose proof P2 as [Aa [Tb [Ca [[Wb Vb Kb Lb] _]]]].
  exists x. split; [split; auto|]. intros m Gm Q. rewrite nbin_wbits by auto.
  pose proof (opnd a _ _ Aa Q) as Q'. rewrite Ta in *.
  pose proof (arith_nobool _ A) as NBt. pose proof (bool_ity _ (proj1 A) NBt) as NT.
  pose proof A as A'. apply arith_inv in A'. destruct A' as [i [Et [Ei [W' [_ _]]]]].
  rewrite Et in H. rewrite Ei in *.
  destruct (divmod_ok sym rec d i a k st _ NT ltac:(lia) H) as [st1' [code' [R1' [EE [_ SEM]]]]].
  rewrite R1 in R1'. injection R1' as <-. apply emit_inj in EE. subst code'.
  apply (SEM m x y v); auto. exact (const_val G env b k Wb Vb Kb EK y Y).
Qed.

(** ** Arithmetic on trees of any type *)
Lemma arith2_struct o n l r p st st1 : gen_arith_opt_gp2 G rec o n l r p st = Ok (Some st1) ->
  exists st0 c, rec MExpr l st = Ok st0 /\ st1 = emit c st0 /\ labels c = [].
Proof.
  unfold gen_arith_opt_gp2. intros H. bnd H. destruct p as [|[|[|p]]].
  - bnd H. destruct a1; [|discriminate]. bnd H. injection H as <-.
    eexists _, _. split; [reflexivity|]. split; [reflexivity|]. eapply labels_imm_arith; eassumption.
  - destruct (is_memop G r) as [[? ?]|]; [|discriminate]. bnd H. injection H as <-. eexists _, _. split; [reflexivity|]. split; reflexivity.
  - destruct r; try discriminate. destruct (is_memop G r) as [[? ?]|]; [|discriminate].
    destruct (_ <=? _); [|discriminate]. bnd H. injection H as <-. eexists _, _. split; [reflexivity|]. split; reflexivity.
  - destruct r; try discriminate. destruct (is_memop G r) as [[? ?]|]; [|discriminate].
    destruct (_ <? _); [|discriminate]. bnd H. injection H as <-. eexists _, _. split; [reflexivity|]. split; [reflexivity|].
    destruct (negb (uns (nty r)) && (n =? 8)); bnd E2; injection E2 as <-; rewrite labels_app;
      [rewrite (labels_load_extend64 _ _ _ _ _ E3)|rewrite (labels_load_extend _ _ _ _ _ _ E3)]; reflexivity.
Qed.

Lemma arith_struct nd n st st1 : gen_arith_opt_gp G rec nd n st = Ok (Some st1) ->
  exists l st0 c, rec MExpr l st = Ok st0 /\ st1 = emit c st0 /\ labels c = [].
Proof.
  intros H.
  assert (ONE : forall o l r p, gen_arith_opt_gp2 G rec o n l r p st = Ok (Some st1) ->
    exists l st0 c, rec MExpr l st = Ok st0 /\ st1 = emit c st0 /\ labels c = []).
  { intros o l r p E. exists l. eapply arith2_struct; eauto. }
  unfold gen_arith_opt_gp in H. destruct nd; try discriminate. cbv beta zeta in H.
  destruct o; try discriminate;
  repeat first [eapply ONE; exact H | apply orelse_some in H; destruct H as [H|[_ H]]].
Qed.

Lemma arith_gen o t a b st st1 : gen_arith_opt_gp G rec (NBin o t a b) (sz t) st = Ok (Some st1) ->
  mspec MExpr (NBin o t a b) st st1.
Proof.
  intros H. destruct (Z.eq_dec (sz t) 4) as [E4|N4]; [apply arith_expr; auto|].
  destruct (Z.eq_dec (sz t) 8) as [E8|N8]; [apply arith_expr; auto|].
  apply arith_struct in H. destruct H as [l [st0 [c [R0 [-> L]]]]]. apply IH in R0.
  eapply spec_emit; [exact R0|exact L|]. intros v Hv. exfalso.
  destruct (nbin_pre o t a b v Hv) as [_ [A _]]. pose proof (is_ty_size t (proj1 A)). destruct A. lia.
Qed.

(** ** Pieces ending with labels *)
Lemma spec_cnt st st' preA QA : spec st st' preA QA -> cnt st <= cnt st'.
Proof. intros [c [g [s [E _]]]]. apply E. Qed.

Lemma spec_tail st st1 preA QA tail (pr : Z -> Prop) (Q : Z -> option label -> mach -> Prop) :
  spec (snd (count_ st)) st1 preA QA -> NoDup (labels tail) -> (forall l, In l (labels tail) -> snd l = cnt st) ->
  (forall v, pr v -> exists va, preA va /\ forall j m, good m -> QA va j m ->
     exists j' m', run sym tail j m = Some (j', m') /\ pres m m' /\ Q v j' m') ->
  spec st (emit tail st1) pr Q.
Proof.
  intros [c [g [s [E S]]]] ND LB H. exists (c ++ tail), g, s. split.
  - destruct E as [A1 A2 A3 A4 A5 A6 A7]. cbn [count_ snd out slots cnt peak] in *.
    constructor; cbn [emit out slots cnt peak]; auto; try lia.
    + rewrite A1, app_assoc. reflexivity.
    + destruct A7 as [L1 L2]. split; rewrite labels_app.
      * apply NoDup_app_intro; auto. intros x I1 I2. apply L2 in I1. apply LB in I2. lia.
      * intros l Hl. apply in_app_iff in Hl. destruct Hl as [Hl|Hl]; [apply L2 in Hl|apply LB in Hl]; lia.
  - intros HP HL v Hv m Hm. destruct (H v Hv) as [va [PA HQ]].
    destruct (S HP HL va PA m Hm) as [j [m1 [R1 [K1 Q1]]]].
    pose proof (keep_good _ _ _ _ _ _ _ _ _ _ _ E HP HL Hm K1) as Gm.
    destruct (HQ j m1 Gm Q1) as [j' [m' [R2 [P2 Q2]]]].
    exists j', m'. rewrite run_app, R1. split; [exact R2|]. split; [|exact Q2].
    destruct K1 as [A B C]. destruct P2 as [P2 P3]. constructor.
    + intros r Hr. rewrite P2, A; auto; apply callee_not in Hr; tauto.
    + intros i Hi. pose proof (tmp_not_scratch i). rewrite P2, B; tauto || auto.
    + intros a Ha. rewrite P3. apply C. exact Ha.
Qed.

(** ** Conditions *)
Definition lg (sc : bool) (a b : node) : node := if sc then NLogOr a b else NLogAnd a b.

Lemma lg_pre sc a b v : pre (lg sc a b) v -> exists x, pre a x /\ boolish a = true /\ boolish b = true /\
  (if Bool.eqb (negb (x =? 0)) sc then v = b2z sc else exists y, pre b y /\ v = b2z (negb (y =? 0))).
Proof.
  intros [[W V K L] T]. assert (W' : wtn a /\ wtn b) by (destruct sc; exact W).
  assert (V' : venv env a /\ venv env b) by (destruct sc; exact V).
  assert (K' : kenv (gc G) env a /\ kenv (gc G) env b) by (destruct sc; exact K).
  assert (L' : boolish a = true /\ boolish b = true /\ place a /\ place b) by (destruct sc; exact L).
  destruct W', V', K', L' as [B1 [B2 [L1 L2]]].
  destruct sc; cbn [lg teval] in T; destruct (teval env a) as [x|] eqn:X; try discriminate;
  exists x; (split; [split; [constructor; auto|exact X]|]); (split; [exact B1|]); (split; [exact B2|]).
  - destruct (x =? 0); cbn [negb Bool.eqb] in *.
    + destruct (teval env b) as [y|] eqn:Y; [|discriminate]. injection T as <-. exists y.
      split; [split; [constructor; auto|exact Y]|reflexivity].
    + injection T as <-. reflexivity.
  - destruct (x =? 0); cbn [negb Bool.eqb] in *.
    + injection T as <-. reflexivity.
    + destruct (teval env b) as [y|] eqn:Y; [|discriminate]. injection T as <-. exists y.
      split; [split; [constructor; auto|exact Y]|reflexivity].
Qed.

Lemma b2z_eq0 b : negb (b2z b =? 0) = b. Proof. destruct b; reflexivity. Qed.

Lemma cond_pair sc l a b st st1 st2 : rec (MCond sc l) a st = Ok st1 -> rec (MCond sc l) b st1 = Ok st2 ->
  mspec (MCond sc l) (lg sc a b) st st2.
Proof.
  intros R1 R2 HL. apply IH in R1, R2. specialize (R1 HL).
  pose proof (spec_cnt _ _ _ _ R1) as C1. specialize (R2 ltac:(lia)).
  eapply spec_seq; [exact R1|exact R2|]. intros v [Hv _].
  destruct (lg_pre sc a b v Hv) as [x [Px [B1 [B2 HX]]]]. exists x. split; [auto|].
  intros j m Gm ->. destruct (Bool.eqb (negb (x =? 0)) sc) eqn:EX.
  - split; [lia|]. rewrite HX, b2z_eq0, eqb_reflx. reflexivity.
  - destruct HX as [y [Py ->]]. exists y. split; [auto|]. intros j' m' _ ->. rewrite b2z_eq0. reflexivity.
Qed.

Lemma test_jcc m v (jc : bool) l : eqm 64 (rg m AX) v -> v = 0 \/ v = 1 ->
  exists m', run sym [Alu ATest None (R S1 AX) (R S1 AX); Jcc (if jc then CcNE else CcE) l] None m =
     Some (if Bool.eqb (negb (v =? 0)) jc then Some l else None, m') /\ pres m m'.
Proof.
  intros E V.
  assert (A : getr S1 AX m = v).
  { unfold getr. cbn [nbits]. assert (E8 : eqm 8 (rg m AX) v) by (eapply eqm_le; [|exact E]; lia).
    unfold eqm in E8. rewrite E8. destruct V as [-> | ->]; reflexivity. }
  eexists. split; [|].
  - xstep. rewrite A. destruct V as [-> | ->], jc; reflexivity.
  - prest.
Qed.

Lemma xor1 m v : eqm 64 (rg m AX) v -> v = 0 \/ v = 1 ->
  slc [Alu AXor None (I 1) (R S1 AX)] m (fun m' => eqm 64 (rg m' AX) (1 - v)).
Proof.
  intros E V. assert (A : rg m AX mod 2 ^ 64 = v) by (rewrite E; destruct V as [-> | ->]; reflexivity).
  assert (A8 : getr S1 AX m = v).
  { unfold getr. cbn [nbits]. assert (E8 : eqm 8 (rg m AX) v) by (eapply eqm_le; [|exact E]; lia).
    unfold eqm in E8. rewrite E8. destruct V as [-> | ->]; reflexivity. }
  eexists. split; [|split].
  - xstep. rewrite A8. reflexivity.
  - prest.
  - cbn [rg setf putr setr reg_eqb nbits]. rewrite A. destruct V as [-> | ->]; reflexivity.
Qed.

Lemma cond_tail_ok n jc l st st' : gen_cond_tail rec n jc l st = Ok st' -> mspec (MCond jc l) n st st'.
Proof.
  unfold gen_cond_tail. intros H HL. bnd H. injection H as <-. apply IH in E.
  eapply spec_emit; [exact E|reflexivity|]. intros v [Hv B]. exists v. split; [exact Hv|].
  intros j m Gm [-> Q]. split; [reflexivity|]. rewrite wbits_boolish in Q by auto.
  destruct Hv as [[W V K L] T]. pose proof (boolish_val env n v W V B T) as V01.
  destruct (test_jcc m v jc l Q V01) as [m' [R' P']]. eexists _, m'. split; [exact R'|]. split; [exact P'|reflexivity].
Qed.

Lemma label_lt l k c : snd l < c -> label_eqb l (k, c) = false.
Proof. intros H. unfold label_eqb. cbn [fst snd]. destruct (Z.eqb_spec (snd l) c); [lia|]. apply andb_false_r. Qed.

Definition cond_core (n : node) (jc : bool) (l : label) (st : gst) : outcome gst :=
      do k <- const_of G n;
      match k with
      | Some v => Ok (if v =? z_of_bool jc then emit [Jmp l] st else st)
      | None =>
          match n with
          | NCmp o a b =>
              do r <- gen_cmp_opt_gp G rec o a b st;
              do q <- match r with
                      | Some p => Ok p
                      | None => do st1 <- gen_cmp_plain G rec a b st; Ok (o, st1)
                      end;
              let '(o', st1) := q in
              Ok (emit [Jcc (cmp_cc (flip_cmp o' (negb jc)) (uns (nty a))) l] st1)
          | NLogAnd a b | NLogOr a b =>
              let sc := match n with NLogOr _ _ => true | _ => false end in
              if Bool.eqb sc jc then
                do st1 <- rec (MCond jc l) a st; rec (MCond jc l) b st1
              else
                let '(c, st) := count_ st in
                do st1 <- rec (MCond sc (LShort, c)) a st;
                do st2 <- rec (MCond sc (LShort, c)) b st1;
                Ok (emit [Jmp l; Lab (LShort, c)] st2)
          | NCast t a =>
              if is_bool t then
                do p <- usual_arith_conv (gc G) a (NNum (nty a) 0);
                rec (MCond jc l) (NCmp CNe (fst p) (snd p)) st
              else gen_cond_tail rec n jc l st
          | _ => gen_cond_tail rec n jc l st
          end
      end.

Lemma cond_log (sc : bool) a b (jc : bool) l st st' :
  (if Bool.eqb sc jc then do st1 <- rec (MCond jc l) a st; rec (MCond jc l) b st1
   else let '(c, st) := count_ st in
        do st1 <- rec (MCond sc (LShort, c)) a st;
        do st2 <- rec (MCond sc (LShort, c)) b st1;
        Ok (emit [Jmp l; Lab (LShort, c)] st2)) = Ok st' -> mspec (MCond jc l) (lg sc a b) st st'.
Proof.
  intros H. destruct (Bool.eqb sc jc) eqn:EB.
  - apply eqb_prop in EB. subst jc. bnd H. eapply cond_pair; eauto.
  - cbn [count_] in H. bnd H. injection H as <-. intros HL.
    pose proof (cond_pair sc (LShort, cnt st) a b _ _ _ E E0) as CP.
    cbn [mspec] in CP. specialize (CP ltac:(cbn; lia)).
    eapply spec_tail; [exact CP| | |].
    + constructor; [intros []|constructor].
    + intros l' [<-|[]]. reflexivity.
    + intros v Hv. exists v. split; [exact Hv|]. intros j m Gm ->.
      exists (if Bool.eqb (negb (v =? 0)) jc then Some l else None), m.
      split; [|split; [apply pres_refl|reflexivity]].
      assert (BX : Bool.eqb (negb (v =? 0)) jc = negb (Bool.eqb (negb (v =? 0)) sc)).
      { destruct sc, jc; try discriminate; destruct (v =? 0); reflexivity. }
      rewrite BX. destruct (Bool.eqb (negb (v =? 0)) sc); cbn [negb run].
      * unfold label_eqb. cbn [fst snd lkind_eqb andb]. rewrite Z.eqb_refl. reflexivity.
      * rewrite label_lt by exact HL. reflexivity.
Qed.

Lemma cond_core_ok n jc l st st' : cond_core n jc l st = Ok st' -> mspec (MCond jc l) n st st'.
Proof.
  unfold cond_core. intros H. bnd H. destruct a as [k|].
  - injection H as <-. intros HL.
    assert (KV : forall v, pre n v -> boolish n = true -> (v = 0 \/ v = 1) /\ k = v).
    { intros v [[W V K L] T] B. pose proof (boolish_val env n v W V B T) as V01. split; [exact V01|].
      rewrite (const_val G env n k W V K E v T). destruct V01 as [-> | ->]; reflexivity. }
    destruct (Z.eqb_spec k (z_of_bool jc)) as [EK|NK].
    + apply spec_code; [reflexivity|]. intros v [Hv B] m Gm. destruct (KV v Hv B) as [V01 <-].
      exists (Some l), m. split; [reflexivity|]. split; [apply pres_refl|].
      rewrite EK. destruct jc; reflexivity.
    + exists [], 0%nat, 0%nat. split; [apply ext_refl|]. intros _ _ v [Hv B] m Gm. destruct (KV v Hv B) as [V01 ->].
      exists None, m. split; [reflexivity|]. split; [apply keep_refl|].
      destruct V01 as [-> | ->], jc; cbn in *; congruence.
  - clear E.
    destruct n; try (apply cond_tail_ok; exact H).
    + (* NCmp *)
      bnd H. destruct a0 as [o' st1]. injection H as <-. intros HL.
      assert (SF : spec st st1 (fun _ => pre2 n1 n2) (fun _ => plainq (qflags o o' n1 n2))).
      { destruct a as [[o'' st'']|].
        - injection E0 as <- <-. apply cmp_opt_ok; exact E.
        - bnd E0. injection E0 as <- <-. apply cmp_plain_ok in E1. eapply spec_weak; [exact E1|].
          intros v P2. exists v. split; [exact P2|]. intros j m Gm [-> Q]. split; [reflexivity|]. apply qcmp_flags; auto. }
      eapply spec_emit; [exact SF|reflexivity|]. intros v [Hv _]. exists 0.
      destruct (ncmp_pre o n1 n2 v Hv) as [P2 [x [y [X [Y ->]]]]]. split; [exact P2|].
      intros j m Gm [-> [f [F1 F2]]]. split; [reflexivity|]. eexists _, m. cbn [run]. rewrite F1.
      split; [reflexivity|]. split; [apply pres_refl|]. rewrite (F2 (negb jc) x y X Y), b2z_eq0.
      destruct (c_cmp o x y), jc; reflexivity.
    + apply (cond_log false). exact H.
    + apply (cond_log true). exact H.
    + destruct (is_bool t) eqn:BT; [|apply cond_tail_ok; exact H]. bnd H. apply IH in H. intros HL. specialize (H HL).
      eapply spec_weak; [exact H|]. intros v [Hv _].
      destruct (cast_pre t n v Hv) as [va [[Ca Ta] [-> [Tt _]]]].
      destruct (cmp_zero_ok G sym env bs P mem0 CO CNe n a E (or_intror eq_refl) Ca) as [CC TT].
      exists (b2z (c_cmp CNe va 0)). split; [split; [split; [exact CC|apply TT; exact Ta]|reflexivity]|].
      intros j m _ ->. unfold is_ty in Tt. destruct (ity t) eqn:Ei; subst t; try discriminate BT.
      rewrite conv_bool. reflexivity.
Qed.

Lemma gen_cond_ok n jc l st st' : gen_cond G rec n jc l st = Ok st' -> mspec (MCond jc l) n st st'.
Proof.
  intros H. change (gen_cond G rec n jc l st) with
    (if opt (gc G) then let '(n', jc') := match bool_expr_opt n with
                      | Some (e, flip) => (e, xorb jc flip) | None => (n, jc) end in cond_core n' jc' l st
     else gen_cond_tail rec n jc l st) in H.
  destruct (opt (gc G)); [|apply cond_tail_ok; exact H].
  destruct (bool_expr_opt n) as [[e flip]|] eqn:BE; [|apply cond_core_ok; exact H].
  apply cond_core_ok in H. intros HL. specialize (H HL). eapply spec_weak; [exact H|].
  intros v [[C T] B]. unfold bool_expr_opt in BE.
  destruct (bool_expr_opt2_ok G sym env bs P mem0 n false None e flip BE) as [X|[Be HE]]; [discriminate|].
  destruct (HE C) as [Ce HV]. destruct (HV v T) as [w [TW [V01 X]]]. exists w. split; [split; [split; auto|exact Be]|].
  intros j m _ ->. rewrite xorb_false_r in X. rewrite X. destruct (w =? 0), flip, jc; reflexivity.
Qed.

(** ** Logical operators *)
Lemma logical_ok sc a b flip st st' n : gen_logical rec sc a b flip st = Ok st' ->
  (forall v, pre n v -> exists w, pre (lg sc a b) w /\ (v = 0 \/ v = 1) /\ negb (v =? 0) = xorb (negb (w =? 0)) flip) ->
  mspec MExpr n st st'.
Proof.
  unfold gen_logical. intros H HP. cbn [count_] in H. bnd H. injection H as <-.
  pose proof (cond_pair sc (LShort, cnt st) a b _ _ _ E E0) as CP. cbn [mspec] in CP. specialize (CP ltac:(cbn; lia)).
  eapply spec_tail; [exact CP| | |].
  - destruct (xorb sc flip); cbn; (constructor; [intros [X|[]]; discriminate|]); (constructor; [intros []|constructor]).
  - destruct (xorb sc flip); cbn; intros l [<-|[<-|[]]]; reflexivity.
  - intros v Hv. destruct (HP v Hv) as [w [Pw [V01 VW]]]. exists w. split; [split; [exact Pw|destruct sc; reflexivity]|].
    intros j m Gm ->.
    assert (LL : label_eqb (LShort, cnt st) (LShort, cnt st) = true /\ label_eqb (LFall, cnt st) (LFall, cnt st) = true /\
        label_eqb (LFall, cnt st) (LShort, cnt st) = false).
    { unfold label_eqb. cbn [fst snd lkind_eqb andb]. rewrite Z.eqb_refl. auto. }
    destruct LL as [L1 [L2 L3]].
    assert (D : forall z : bool, exists m', exec1 sym (if z then Mov (Some S4) (I 1) (R S4 AX) else Alu AXor None (R S4 AX) (R S4 AX)) m = Some m' /\
       pres m m' /\ eqm 64 (rg m' AX) (b2z z)).
    { intros [|]; (eexists; split; [xstep; reflexivity|]; split; [prest|]); cbn [rg setf putr setr reg_eqb nbits b2z].
      - reflexivity.
      - rewrite Z.lxor_nilpotent. reflexivity. }
    assert (VV : v = b2z (xorb (negb (w =? 0)) flip)).
    { rewrite <- VW. destruct V01 as [-> | ->]; reflexivity. }
    destruct (D (xorb (negb (w =? 0)) flip)) as [m' [X [PR Q]]]. exists None, m'.
    split; [|split; [exact PR|split; [reflexivity|rewrite VV; apply eqm_le64; exact Q]]].
    revert X. clear - L1 L2 L3. intros X.
    destruct (w =? 0), sc, flip; cbn [negb Bool.eqb xorb] in *; cbn [run]; rewrite ?L1, ?X; cbn [run]; rewrite ?L3, ?L2; reflexivity.
Qed.

Lemma gen_bool_ok n st : opt_spec n st (gen_bool_opt G rec n st).
Proof.
  intros st' H. unfold gen_bool_opt in H. destruct (bool_expr_opt n) as [[e flip]|] eqn:BE; [|discriminate].
  destruct (negb (is_not n) && _); [discriminate|]. unfold bool_expr_opt in BE.
  destruct (bool_expr_opt2_ok G sym env bs P mem0 n false None e flip BE) as [X|[Be HE]]; [discriminate|].
  assert (HV : forall v, pre n v -> exists w, pre e w /\ (v = 0 \/ v = 1) /\ negb (v =? 0) = xorb (negb (w =? 0)) flip).
  { intros v [C T]. destruct (HE C) as [Ce HV]. destruct (HV v T) as [w [TW [V01 X]]]. exists w.
    split; [split; auto|]. split; [exact V01|]. rewrite xorb_false_r in X. exact X. }
  clear HE BE.
  assert (VB : forall v (b : bool), v = 0 \/ v = 1 -> negb (v =? 0) = b -> v = b2z b).
  { intros v b [-> | ->] <-; reflexivity. }
  assert (DEF : (do r <- rec MExpr e st; Ok (Some (if flip then emit [Alu AXor None (I 1) (R S1 AX)] r else r))) = Ok (Some st') ->
     mspec MExpr n st st').
  { intros D. bnd D. injection D as <-. apply IH in E. destruct flip.
    - eapply after_spec; [exact E|reflexivity|]. intros v Hv. destruct (HV v Hv) as [w [Pw [V01 VW]]].
      exists w. split; [exact Pw|]. intros m Gm Q. rewrite wbits_boolish in Q by exact Be.
      destruct Pw as [[W V K L] T]. pose proof (boolish_val env e w W V Be T) as W01.
      eapply slc_weak; [apply (xor1 m w Q W01)|]. intros m' _ Q'.
      replace v with (1 - w) by (destruct W01 as [-> | ->], V01 as [-> | ->]; cbn in VW; try discriminate; reflexivity).
      apply eqm_le64. exact Q'.
    - eapply expr_weak; [exact E|]. intros v Hv. destruct (HV v Hv) as [w [Pw [V01 VW]]].
      exists w. split; [exact Pw|]. intros r Q. rewrite wbits_boolish in Q by exact Be.
      destruct Pw as [[W V K L] T]. pose proof (boolish_val env e w W V Be T) as W01.
      replace v with w by (destruct W01 as [-> | ->], V01 as [-> | ->]; cbn in VW; try discriminate; reflexivity).
      apply eqm_le64. exact Q. }
  destruct e; try (apply DEF; exact H).
  - (* NCmp *)
    bnd H. injection H as <-. apply IH in E. eapply expr_weak; [exact E|]. intros v Hv.
    destruct (HV v Hv) as [w [[[W V K L] T] [V01 VW]]].
    destruct (ncmp_pre o e1 e2 w (conj (mkcgok _ _ _ _ _ _ _ W V K L) T)) as [_ [x [y [X [Y EW]]]]].
    exists (b2z (c_cmp (flip_cmp o flip) x y)). split; [split; [exact (mkcgok G sym env bs P mem0 (NCmp (flip_cmp o flip) e1 e2) W V K L)|]|].
    + cbn [teval]. rewrite X, Y. reflexivity.
    + intros r Q. rewrite wbits_boolish in Q by reflexivity. rewrite EW, b2z_eq0 in VW.
      rewrite (VB v _ V01 VW), <- c_cmp_flip. apply eqm_le64. exact Q.
  - bnd H. injection H as <-. eapply (logical_ok false); [exact E|]. exact HV.
  - bnd H. injection H as <-. eapply (logical_ok true); [exact E|]. exact HV.
  - (* NCast *)
    destruct (is_bool t) eqn:BT; [|apply DEF; exact H]. bnd H. injection H as <-.
    eapply gen_cmp_zero_ok; [exact E|destruct flip; auto|]. intros v Hv. destruct (HV v Hv) as [w [Pw [V01 VW]]].
    destruct (cast_pre t e w Pw) as [va [Pa [Ew [Tt _]]]]. exists va. split; [exact Pa|].
    unfold is_ty in Tt. destruct (ity t) eqn:Ei; subst t; try discriminate BT.
    rewrite Ew, conv_bool, b2z_eq0 in VW. rewrite (VB v _ V01 VW). destruct flip; cbn [c_cmp]; destruct (va =? 0); reflexivity.
Qed.

(** ** The conditional operator *)
Lemma keep_cat st st1 st1' st2 g1 s1 g2 s2 m m1 m2 : peak st <= peak st1 -> peak st1 <= peak st1' -> peak st1' <= peak st2 ->
  keep G bs st st1 g1 s1 m m1 -> keep G bs st1' st2 g2 s2 m1 m2 -> keep G bs st st2 (Nat.max g1 g2) (Nat.max s1 s2) m m2.
Proof.
  intros L1 L2 L3 [A1 A2 A3] [B1 B2 B3]. constructor.
  - intros. rewrite B1, A1; auto.
  - intros i Hi. rewrite B2, A2 by lia. reflexivity.
  - unfold zhi, zlo in *. intros a Ha. rewrite B3, A3; [reflexivity|..]; destruct (reuse G); lia.
Qed.

Lemma cond_ok t k a b st st' : gen_expr_plain G rec (NCond t k a b) st = Ok st' -> mspec MExpr (NCond t k a b) st st'.
Proof.
  cbn [gen_expr_plain count_]. intros H. bnd H. injection H as <-. apply IH in E, E0, E1.
  cbn [mspec cnt] in E. specialize (E ltac:(cbn; lia)).
  set (st0 := mkgst (out st) (slots st) (peak st) (cnt st + 1)) in *.
  rename a0 into st1, a1 into st2, a2 into st3. set (c := cnt st) in *.
  destruct E as [c1 [g1 [s1 [X1 S1]]]]. destruct E0 as [c2 [g2 [s2 [X2 S2]]]]. destruct E1 as [c3 [g3 [s3 [X3 S3]]]].
  pose proof (ex_cnt _ _ _ _ _ _ X1) as N1. pose proof (ex_cnt _ _ _ _ _ _ X2) as N2. pose proof (ex_cnt _ _ _ _ _ _ X3) as N3.
  pose proof (ex_pk _ _ _ _ _ _ X1) as K1. pose proof (ex_pk _ _ _ _ _ _ X2) as K2. pose proof (ex_pk _ _ _ _ _ _ X3) as K3.
  pose proof (ex_lok _ _ _ _ _ _ X1) as LK1. pose proof (ex_lok _ _ _ _ _ _ X2) as LK2. pose proof (ex_lok _ _ _ _ _ _ X3) as LK3.
  cbn [emit cnt peak st0] in *. fold c in N1, LK1.
  set (el := (LElse, c) : label) in *. set (en := (LEnd, c) : label) in *.
  assert (LEQ : label_eqb el el = true /\ label_eqb en en = true /\ label_eqb en el = false).
  { unfold label_eqb, el, en. cbn [fst snd lkind_eqb andb]. rewrite Z.eqb_refl. auto. }
  destruct LEQ as [Q1 [Q2 Q3]].
  exists (c1 ++ c2 ++ [Jmp en; Lab el] ++ c3 ++ [Lab en]), (Nat.max g1 (Nat.max g2 g3)), (Nat.max s1 (Nat.max s2 s3)).
  split.
  - pose proof (ex_g _ _ _ _ _ _ X1). pose proof (ex_g _ _ _ _ _ _ X2). pose proof (ex_g _ _ _ _ _ _ X3).
    constructor; cbn [emit out slots cnt peak]; try lia.
    + rewrite (ex_out _ _ _ _ _ _ X3). cbn [emit out]. rewrite (ex_out _ _ _ _ _ _ X2), (ex_out _ _ _ _ _ _ X1).
      cbn [out st0]. rewrite <- !app_assoc. reflexivity.
    + rewrite (ex_sl _ _ _ _ _ _ X3). cbn [emit slots]. rewrite (ex_sl _ _ _ _ _ _ X2), (ex_sl _ _ _ _ _ _ X1), !bumpm_bumpm.
      cbn [slots st0]. f_equal; lia.
    + intros RU. pose proof (ex_st _ _ _ _ _ _ X1 RU). pose proof (ex_st _ _ _ _ _ _ X2 RU). pose proof (ex_st _ _ _ _ _ _ X3 RU).
      lia.
    + unfold lok. rewrite !labels_app. cbn [labels flat_map lab_of app].
      destruct LK1 as [A1 A2], LK2 as [B1 B2], LK3 as [C1 C2].
      assert (D1 : NoDup (labels c3 ++ [en])).
      { apply NoDup_app_intro; auto; [constructor; [intros []|constructor]|]. intros l I1 [<-|[]]. apply C2 in I1. cbn in I1. lia. }
      assert (D2 : NoDup (el :: labels c3 ++ [en])).
      { constructor; auto. intros I1. apply in_app_iff in I1. destruct I1 as [I1|[I1|[]]]; [apply C2 in I1; cbn in I1; lia|discriminate]. }
      assert (IN2 : forall l, In l (el :: labels c3 ++ [en]) -> snd l = c \/ cnt st2 <= snd l < cnt st3).
      { intros l [<-|I1]; [left; reflexivity|]. apply in_app_iff in I1. destruct I1 as [I1|[<-|[]]]; [right; auto|left; reflexivity]. }
      split.
      * apply NoDup_app_intro; auto; [apply NoDup_app_intro; auto|].
        -- intros l I1 I2. apply B2 in I1. apply IN2 in I2. lia.
        -- intros l I1 I2. apply A2 in I1. apply in_app_iff in I2. destruct I2 as [I2|I2]; [apply B2 in I2; lia|apply IN2 in I2; lia].
      * intros l I1. apply in_app_iff in I1. destruct I1 as [I1|I1]; [apply A2 in I1; lia|].
        apply in_app_iff in I1. destruct I1 as [I1|I1]; [apply B2 in I1; lia|apply IN2 in I1; lia].
  - intros HP HL v [[W V K L] T] m Hm. cbn [emit peak] in HP. change (lvar_sz G <= peak st0) in HL. change (peak st0 <= peak st1) in K1.
    cbn [wtn venv kenv CgInv.place teval] in W, V, K, L, T.
    destruct W as [Tt [Na [Nb [Wk [Wa Wb]]]]], V as [Vk [Va Vb]], K as [Kk [Ka Kb]], L as [Bk [Lk [La Lb]]].
    destruct (teval env k) as [x|] eqn:TK; [|discriminate].
    assert (Pk : pre k x) by (split; [constructor; auto|exact TK]).
    destruct (S1 ltac:(lia) HL x (conj Pk Bk) m Hm) as [j1 [m1 [R1 [KP1 ->]]]].
    assert (HP1 : peak st1 <= P) by lia. pose proof (keep_good _ _ _ _ _ _ _ _ _ _ _ X1 HP1 HL Hm KP1) as G1.
    rewrite run_app, R1. destruct (Z.eqb_spec x 0) as [X0|NX]; cbn [negb Bool.eqb].
    + (* else branch *)
      assert (Pb : pre b v) by (split; [constructor; auto|exact T]).
      destruct (S3 HP ltac:(cbn [emit peak]; lia) v Pb m1 G1) as [j3 [m3 [R3 [KP3 [-> Q]]]]].
      exists None, m3. rewrite run_app, run_skip by (eapply lok_notin; [exact LK2|cbn; lia]).
      cbn [app run]. rewrite Q1, run_app, R3. cbn [run]. split; [reflexivity|]. split.
      * assert (KC := fun h1 h2 h3 => keep_cat _ _ _ _ _ _ _ _ _ _ _ h1 h2 h3 KP1 KP3).
        cbn [emit peak] in KC. specialize (KC ltac:(lia) ltac:(lia) ltac:(lia)).
        eapply keep_weak; [| | | |exact KC]; cbn [emit peak]; try lia. exact (Z.le_refl _).
      * split; [reflexivity|]. eapply eqm_le; [|exact Q]. apply (wbits_le (NCond t k a b) b); auto.
    + (* then branch *)
      assert (Pa : pre a v) by (split; [constructor; auto|exact T]).
      destruct (S2 ltac:(lia) ltac:(lia) v Pa m1 G1) as [j3 [m3 [R3 [KP3 [-> Q]]]]].
      exists None, m3. rewrite run_app, R3. cbn [app run exec1]. rewrite Q3.
      rewrite run_app, run_skip by (eapply lok_notin; [exact LK3|cbn; lia]). cbn [run]. rewrite Q2.
      split; [reflexivity|]. split.
      * assert (KC := fun h1 h2 h3 => keep_cat _ _ _ _ _ _ _ _ _ _ _ h1 h2 h3 KP1 KP3).
        cbn [emit peak] in KC. specialize (KC ltac:(lia) ltac:(lia) ltac:(lia)).
        eapply keep_weak; [| | | |exact KC]; cbn [emit peak]; try lia. exact (Z.le_refl _).
      * split; [reflexivity|]. eapply eqm_le; [|exact Q]. apply (wbits_le (NCond t k a b) a); auto.
Qed.
(** ** Bit-fields *)
Lemma labels_bitfield t w off ofs c : gen_bitfield_load t w off ofs = Ok c -> labels c = [].
Proof.
  unfold gen_bitfield_load. intros H.
  assert (X : forall d, (do l <- load3 t (BReg AX) ofs;
    do s <- opsize_of (sz t);
    let shft := (if sz t =? 8 then 64 else 32) - w in
    Ok (l ++ (if shft - off =? 0 then [] else [Sh XShl (CImm (shft - off)) (R s AX)])
          ++ [Sh (if uns t then XShr else XSar) (CImm shft) (R s AX)])) = Ok d -> labels d = []).
  { intros d D. bnd D. injection D as <-. rewrite !labels_app, (labels_load3 _ _ _ _ E).
    destruct (_ =? 0); reflexivity. }
  destruct (bitwidth_to_ty w (uns t)); [|apply X; exact H].
  destruct (off =? off / 8 * 8); [eapply labels_load3; exact H|apply X; exact H].
Qed.

Lemma labels_gen_addr x : labels (gen_addr G x) = [].
Proof.
  unfold gen_addr, gen_addr_var. destruct (if opt (gc G) then _ else _) as [[b o]|]; [reflexivity|].
  destruct (loc G x); [reflexivity| |reflexivity]. destruct (negb (pic G)); [reflexivity|]. destruct rip; reflexivity.
Qed.

Lemma bit_tail t w off x v m m1 ofs c : pre (NBit t w off x) v -> good m -> pres m m1 ->
  gen_bitfield_load t w off ofs = Ok c ->
  ea sym (BReg AX) ofs m1 = (vaddr G sym bs x + moff G x) mod 2 ^ 64 ->
  slc c m1 (fun m' => eqm (wbits (NBit t w off x)) (rg m' AX) v).
Proof.
  intros [[W V K L] T] Gm PR C EA. cbn [wtn CgInv.place teval] in W, L, T. injection T as <-.
  destruct W as [Tt [Wr [O0 OW]]], L as [VL [MO [OUT [NB EV]]]].
  assert (G1 : good m1) by (eapply pres_good; eauto).
  eapply slc_weak; [eapply (bitfield_load_ok sym t w off ofs m1 c); eauto; apply OUT|].
  intros m' _ Q. cbn beta in Q. unfold tysize in Q.
  rewrite (fun h => mem_outside _ _ _ _ FR _ (sz t) m1 G1 h OUT) in Q by (destruct (is_ty_size _ Tt) as [X|[X|[X|X]]]; lia).
  rewrite EV. exact Q.
Qed.

Lemma bit_opt_ok t w off x st st' :
  match var_memop G x (moff G x) with
  | Some (b, o) =>
      do c <- gen_bitfield_load t w off 0;
      Ok (Some (emit (Lea b o (R S8 AX) :: c) st))
  | None =>
      do c <- gen_bitfield_load t w off (moff G x);
      Ok (Some (emit (gen_addr G x ++ c) st))
  end = Ok (Some st') -> mspec MExpr (NBit t w off x) st st'.
Proof.
  intros H. destruct (var_memop G x (moff G x)) as [[b o]|] eqn:VM; bnd H; injection H as <-;
  pose proof (labels_bitfield _ _ _ _ _ E) as LB.
  - apply code_spec; [exact LB|]. intros v Hv m Gm.
    pose proof Hv as [[W V K [VL [MO [OUT _]]]] T].
    destruct (var_memop_ok G sym bs P mem0 x _ b o VM VL) as [_ EA]. specialize (EA m Gm).
    change (Lea b o (R S8 AX) :: a) with ([Lea b o (R S8 AX)] ++ a).
    apply slc_app with (Q := fun m1 => rg m1 AX = (vaddr G sym bs x + moff G x) mod 2 ^ 64).
    + eexists. split; [cbn [run exec1]; reflexivity|]. split; [prest|]. cbn [rg putr setr reg_eqb nbits].
      rewrite EA. apply mod_mod_n. lia.
    + intros m1 P1 Q1. eapply bit_tail; eauto. unfold ea. rewrite Q1, Z.add_0_r. apply mod_mod_n. lia.
  - apply code_spec; [rewrite labels_app, labels_gen_addr; exact LB|]. intros v Hv m Gm.
    pose proof Hv as [[W V K [VL [MO [OUT _]]]] T].
    eapply slc_app; [apply (gen_addr_ok G sym env bs P mem0); eauto|]. intros m1 P1 Q1. eapply bit_tail; eauto.
    unfold ea. rewrite Q1. reflexivity.
Qed.

Lemma bit_plain_ok t w off x st st' : gen_expr_plain G rec (NBit t w off x) st = Ok st' -> mspec MExpr (NBit t w off x) st st'.
Proof.
  cbn [gen_expr_plain]. intros H. bnd H. injection H as <-. pose proof (labels_bitfield _ _ _ _ _ E) as LB.
  apply code_spec; [rewrite !labels_app, labels_gen_addr, labels_imm_add; exact LB|]. intros v Hv m Gm.
  pose proof Hv as [[W V K [VL [MO [OUT _]]]] T].
  eapply slc_app; [apply (gen_addr_ok G sym env bs P mem0); eauto|]. intros m1 P1 Q1.
  eapply slc_app; [apply (imm_add_ok sym S8 (moff G x) m1); [right; reflexivity|unfold imm_dom; cbn [size_eqb]; lia]|].
  intros m2 P2 Q2. cbn beta in Q2. eapply bit_tail; [exact Hv|exact Gm|eapply pres_trans; eauto|exact E|].
  unfold ea. rewrite Z.add_0_r, <- Q1. exact Q2.
Qed.

(** ** Optimised expressions *)
Lemma gp_opt_ok n st : opt_spec n st (gen_gp_opt G rec n st).
Proof.
  intros st' H. unfold gen_gp_opt in H.
  destruct n; try (apply arith_struct in H as Hx; discriminate H).
  - destruct o; try (eapply arith_gen; exact H).
    + bnd H. destruct a as [k|]; [|discriminate]. eapply (divmod_expr true); eauto.
    + bnd H. destruct a as [k|]; [|discriminate]. eapply (divmod_expr false); eauto.
  - eapply (shift_opt_ok XShl); eauto.
  - eapply (shift_opt_ok XShr); eauto.
  - eapply (shift_opt_ok XSar); eauto.
  - bnd H. destruct a as [[o' st1]|]; [|discriminate]. injection H as <-. apply setcc_spec. apply cmp_opt_ok. exact E.
Qed.

Lemma narrow_ok t a st st' : sz t = 4 -> sz (nty a) = 8 -> gen_arith_opt_gp G rec a 4 st = Ok (Some st') ->
  mspec MExpr (NCast t a) st st'.
Proof.
  intros S4' S8' H. destruct a; try discriminate H. cbn [nty] in S8'.
  apply arith_opt_ok in H; auto. destruct H as [SO H]. eapply spec_weak; [exact H|].
  intros v Hv. destruct (cast_pre _ _ _ Hv) as [w [Pw [-> [Tt [_ _]]]]].
  destruct (nbin_pre _ _ _ _ _ Pw) as [P2 [A [Ba [x [y [X [Y CB]]]]]]]. exists 0.
  split; [split; [exact P2|rewrite Ba; lia]|]. intros j m Gm [-> Q]. split; [reflexivity|].
  assert (NBt : is_bool t = false). { destruct (is_ty_inv t Tt) as [i [-> E]]. destruct i; try discriminate S4'; reflexivity. }
  rewrite wbits_cast by exact NBt. rewrite S4'. change (4 =? 8) with false. cbn iota.
  eapply eqm_trans; [exact (Q x y X Y)|]. change (8 * 4) with 32.
  eapply eqm_trans; [eapply eqm_le; [|apply (c_bin_alu o (ity t0)); [exact SO| |exact CB]]|].
  - pose proof (arith_nobool _ A). rewrite width_sz by (auto; apply A). lia.
  - apply bool_ity; [apply A|apply arith_nobool; exact A].
  - apply eqm_sym. replace 32 with (iwidth (ity t)) by (rewrite width_sz by auto; lia).
    apply eqm_conv. apply bool_ity; auto.
Qed.

Lemma expr_opt_ok n st : opt_spec n st (gen_expr_opt G rec n st).
Proof.
  intros st' H. unfold gen_expr_opt in H. bnd H. destruct a as [v|].
  { injection H as <-. apply code_spec; [apply load_val_labels|]. intros w [[W V K L] T] m Gm.
    rewrite (const_val G env n v W V K E w T). apply load_const; auto. }
  bnd H. destruct a as [c|]. { injection H as <-. eapply load_opt_ok; eauto. }
  destruct (is_memop G n) as [[b o]|] eqn:M. { bnd H. injection H as <-. eapply load_memop; eauto. }
  apply orelse_some in H. destruct H as [H|[_ H]]; [eapply gen_bool_ok; exact H|].
  apply orelse_some in H. destruct H as [H|[_ H]]; [eapply gp_opt_ok; exact H|].
  apply orelse_some in H. destruct H as [H|[_ H]].
  - destruct n; try discriminate H. destruct ((sz t =? 4) && (sz (nty n) =? 8)) eqn:Z; [|discriminate].
    apply andb_prop in Z. destruct Z as [Z1 Z2]. apply Z.eqb_eq in Z1, Z2. rewrite Z1 in H. apply narrow_ok; auto.
  - destruct n; try discriminate H.
    + apply bit_opt_ok. exact H.
    + bnd H. destruct a as [k|]; [|discriminate]. bnd H. injection H as <-. apply IH in E2.
      eapply expr_weak; [exact E2|]. intros v [[W V K L] T]. cbn [wtn venv kenv CgInv.place teval] in W, V, K, L, T.
      destruct W as [Tt [Na [Nb [Wk [Wa Wb]]]]], V as [Vk [Va Vb]], K as [Kk [Ka Kb]], L as [Bk [Lk [La Lb]]].
      destruct (teval env n1) as [x|] eqn:TK; [|discriminate]. exists v.
      rewrite (const_val G env n1 k Wk Vk Kk E1 x TK).
      pose proof (boolish_val env n1 x Wk Vk Bk TK) as X01.
      replace (rep64 x =? 0) with (x =? 0) by (destruct X01 as [-> | ->]; reflexivity).
      destruct (x =? 0); (split; [split; [constructor; auto|exact T]|]); intros r Q; (eapply eqm_le; [|exact Q]);
      apply wbits_le; auto.
Qed.

(** ** Expressions without optimisation *)
Lemma plain_ok n st st' : gen_expr_plain G rec n st = Ok st' -> mspec MExpr n st st'.
Proof.
  intros H. destruct n; try (apply cond_ok; exact H); try (apply bit_plain_ok; exact H); cbn [gen_expr_plain] in H.
  - (* NNum *)
    injection H as <-. apply code_spec; [apply load_val_labels|]. intros w [[W V K L] T] m Gm.
    pose proof W as [Tt Ev]. cbn [teval] in T. injection T as T.
    replace v with (rep64 w) by (rewrite <- T; symmetry; exact Ev).
    apply (load_const (NNum t v)); auto. rewrite <- T. reflexivity.
  - (* NVar *)
    destruct (loc G x) as [r0 o0|s0 rip|] eqn:LX;
      [| |injection H as <-; apply spec_absurd;
          intros v [[W V K L] T]; cbn [CgInv.place] in L; destruct L as [VL _]; unfold vloc_ok in VL; rewrite LX in VL; exact VL];
    (bnd H; injection H as <-; apply code_spec; [rewrite labels_app, labels_gen_addr; eapply labels_load3; eauto|];
    intros v [[W V K L] T] m Gm; cbn [wtn venv CgInv.place teval] in W, V, L, T; injection T as <-; pose proof L as [VL _];
    eapply slc_app; [apply (gen_addr_ok G sym env bs P mem0); eauto|]; intros m1 P1 Q1;
    eapply slc_weak; [eapply load3_ok; [exact W|exact V| |exact E]|];
    [ eapply (leaf_holds G sym env bs P mem0); eauto; [eapply pres_good; eauto|]; unfold ea; rewrite Q1, Z.add_0_r;
      apply Z.mod_small; apply (vaddr_range G sym env bs P mem0); auto
    | intros m' _ [Z1 Z2]; apply wbits_load; auto ]).
  - (* NPos *)
    apply IH in H. eapply expr_weak; [exact H|]. intros v [[W V K L] T]. destruct W as [A [N W]]. exists v.
    split; [split; [constructor; auto|exact T]|]. intros r Q. eapply eqm_le; [|exact Q]. apply wbits_le; auto.
  - (* NNeg *)
    bnd H. injection H as <-. apply IH in E. eapply after_spec; [exact E|reflexivity|].
    intros v [[W V K L] T]. destruct W as [A [N W]]. cbn [teval] in T.
    destruct (teval env n) as [x|] eqn:TA; [|discriminate]. exists x. split; [split; [constructor; auto|exact TA]|].
    intros m Gm Q. rewrite N in E0. destruct (arith_size _ A) as [s [_ [OS [Bs [NB _]]]]]. rewrite OS in E0. injection E0 as <-.
    eapply slc_weak; [apply (un_ok sym XNeg); exact Bs|]. intros m' _ Q'. cbn beta iota in Q'.
    destruct (wbits_arith (NNeg t n) A) as [_ WB]. rewrite WB by reflexivity. cbn [nty]. rewrite NB in Q'.
    eapply eqm_trans; [exact Q'|]. eapply eqm_trans; [apply eqm_opp|].
    + rewrite <- N. apply opnd; [rewrite N; exact A|exact Q].
    + apply eqm_wrap; [apply bool_ity; [apply A|apply arith_nobool; exact A]|exact T].
  - (* NBitNot *)
    bnd H. injection H as <-. apply IH in E. eapply after_spec; [exact E|reflexivity|].
    intros v [[W V K L] T]. destruct W as [A [N W]]. cbn [teval] in T.
    destruct (teval env n) as [x|] eqn:TA; [|discriminate]. injection T as <-. exists x. split; [split; [constructor; auto|exact TA]|].
    intros m Gm Q. eapply slc_weak; [apply (un_ok sym XNot S8); right; reflexivity|]. intros m' _ Q'. cbn beta iota in Q'.
    destruct (wbits_arith (NBitNot t n) A) as [_ WB]. rewrite WB by reflexivity. cbn [nty].
    eapply eqm_trans; [eapply eqm_le; [|exact Q']|].
    + pose proof (width_sz t (proj1 A) (arith_nobool _ A)). destruct (is_ty_size _ (proj1 A)) as [X|[X|[X|X]]]; cbn [nbits]; lia.
    + eapply eqm_trans; [|apply eqm_sym, eqm_conv; apply bool_ity; [apply A|apply arith_nobool; exact A]].
      apply eqm_sub; [|apply eqm_refl]. apply eqm_opp. rewrite <- N. apply opnd; [rewrite N; exact A|exact Q].
  - (* NNot *)
    bnd H. injection H as <-. apply IH in E. eapply after_spec; [exact E|reflexivity|].
    intros v [[W V K [Bn L]] T]. cbn [teval] in T.
    destruct (teval env n) as [x|] eqn:TA; [|discriminate]. injection T as <-. exists x. split; [split; [constructor; auto|exact TA]|].
    intros m Gm Q. rewrite wbits_boolish in Q by exact Bn. pose proof (boolish_val env n x W V Bn TA) as X01.
    eapply slc_weak; [apply (xor1 m x Q X01)|]. intros m' _ Q'. apply eqm_le64.
    replace (b2z (x =? 0)) with (1 - x) by (destruct X01 as [-> | ->]; reflexivity). exact Q'.
  - apply binary_ok. exact H.
  - eapply (shift_ok XShl); eauto.
  - eapply (shift_ok XShr); eauto.
  - eapply (shift_ok XSar); eauto.
  - (* NCmp *)
    bnd H. injection H as <-. apply setcc_spec. eapply spec_weak; [apply cmp_plain_ok; exact E|].
    intros v P2. exists v. split; [exact P2|]. intros j m _ [-> Q]. split; [reflexivity|]. apply qcmp_flags; auto.
  - eapply (logical_ok false); [exact H|]. intros v Hv. exists v. split; [exact Hv|].
    rewrite xorb_false_r. split; [|reflexivity]. destruct Hv as [[W V K L] T]. eapply boolish_val; eauto.
  - eapply (logical_ok true); [exact H|]. intros v Hv. exists v. split; [exact Hv|].
    rewrite xorb_false_r. split; [|reflexivity]. destruct Hv as [[W V K L] T]. eapply boolish_val; eauto.
  - (* NComma *)
    bnd H. apply IH in E, H. eapply spec_seq; [exact E|exact H|]. intros v [[W V K L] T].
    destruct W as [N [Wa Wb]], V as [Va Vb], K as [Ka Kb], L as [La Lb]. cbn [teval] in T.
    destruct (teval env n1) as [x|] eqn:TA; [|discriminate]. exists x. split; [split; [constructor; auto|exact TA]|].
    intros j m Gm [-> _]. exists v. split; [split; [constructor; auto|exact T]|]. intros j' m' _ [-> Q]. split; [reflexivity|].
    eapply eqm_le; [|exact Q]. apply wbits_le; auto.
  - apply gen_cast_ok. exact H.
Qed.

Lemma expr2_ok n st st' : gen_expr2 G rec n st = Ok st' -> mspec MExpr n st st'.
Proof.
  unfold gen_expr2. destruct (opt (gc G)); [|apply plain_ok]. intros H. bnd H.
  destruct a as [st1|]; [|apply plain_ok; exact H]. injection H as <-. eapply expr_opt_ok; eauto.
Qed.

Lemma void_weak n a st st' : mspec MVoid a st st' -> (forall v, pre n v -> exists va, pre a va) -> mspec MVoid n st st'.
Proof.
  intros S H. eapply spec_weak; [exact S|]. intros v Hv. destruct (H v Hv) as [va Pa]. exists va. split; [exact Pa|]. auto.
Qed.

Lemma void_seq n a b st st1 st2 : mspec MVoid a st st1 -> mspec MVoid b st1 st2 ->
  (forall v, pre n v -> exists va vb, pre a va /\ pre b vb) -> mspec MVoid n st st2.
Proof.
  intros A B H. eapply spec_seq; [exact A|exact B|]. intros v Hv. destruct (H v Hv) as [va [vb [Pa Pb]]].
  exists va. split; [exact Pa|]. intros j m Gm [-> _]. exists vb. split; [exact Pb|]. auto.
Qed.

Lemma void_ok n st st' : gen_void_expr G rec n st = Ok st' -> mspec MVoid n st st'.
Proof.
  assert (NIL : forall n, mspec MVoid n st st).
  { intros n0. exists [], 0%nat, 0%nat. split; [apply ext_refl|]. intros HP HL v Hv m Hm. exists None, m.
    split; [reflexivity|]. split; [apply keep_refl|]. split; auto. }
  assert (E2 : forall n, gen_expr2 G rec n st = Ok st' -> mspec MVoid n st st').
  { intros n0 H. apply expr2_ok in H. eapply spec_weak; [exact H|]. intros v Hv. exists v. split; [exact Hv|].
    intros j m _ [-> _]. split; auto. }
  intros H. destruct n; cbn [gen_void_expr] in H; try (injection H as <-; apply NIL); try (apply E2; exact H);
  bnd H; repeat match goal with Hx : rec _ _ _ = Ok _ |- _ => apply IH in Hx end.
  all: try (eapply void_weak; [eassumption|]; intros v [[W V K L] T];
    cbn [wtn venv kenv CgInv.place teval] in W, V, K, L, T;
    destruct (teval env n) as [x|] eqn:TA; [|discriminate]; exists x; split; [constructor; tauto|exact TA]).
  all: eapply void_seq; [eassumption|eassumption|]; intros v [[W V K L] T];
    cbn [wtn venv kenv CgInv.place teval opt2] in W, V, K, L, T;
    destruct (teval env n1) as [x|] eqn:TA; try discriminate;
    destruct (teval env n2) as [y|] eqn:TB; try discriminate; exists x, y; 
    (split; (split; [constructor; tauto|assumption])).
Qed.
End Gen.

(** ** The generator as a whole *)
Theorem gen_ok G sym env bs P mem0 : frame_ok G bs P -> cfg_ok (gc G) ->
  forall f md n st st', gen G f md n st = Ok st' -> mspec G sym env bs P mem0 md n st st'.
Proof.
  intros FR CO. induction f as [|f IH]; intros md n st st' H; [discriminate|]. cbn [gen] in H.
  destruct md.
  - eapply expr2_ok; eauto.
  - eapply void_ok; eauto.
  - eapply gen_cond_ok; eauto.
Qed.
