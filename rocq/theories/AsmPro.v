(** Proofs for AsmCodeModel.v: the code before the instructions. *)
From Coq Require Import Ascii String ZArith List Bool Lia Arith.
From Verif Require Import AsmSpec AsmModel AsmProofs AsmCodeSpec AsmCodeModel AsmMach.
Import ListNotations.
Local Open Scope string_scope.
Local Open Scope Z_scope.
Local Open Scope list_scope.

Definition base_ok (m : mref) : Prop := match m with Base r _ => r = BP \/ r = BX | Abs _ => True end.
Definition finds (al : nat -> nat) (f0 f : nat -> Z) : Prop := f (al BP) = f0 BP /\ f (al BX) = f0 BX.
Lemma finds_addr : forall al f0 f m, finds al f0 f -> base_ok m -> addr f (via al m) = addr f0 m.
Proof. intros al f0 f [r o|a] [A B] K; [|reflexivity]. destruct K as [-> | ->]; cbn [via addr]; congruence. Qed.
Lemma low_ok : forall n v x y, 0 <= v < two (8 * n) -> y = x / two (8 * n) * two (8 * n) + v \/ y = v -> y mod two (8 * n) = v.
Proof.
  intros n v x y H [-> | ->]; [|apply Z.mod_small; exact H]. rewrite Z.add_comm, Z.mod_add by (pose proof (two_pos (8 * n)); lia). apply Z.mod_small. exact H.
Qed.
(** Code that changes no memory and only the registers [T]. *)
Definition quiet (T : nat -> Prop) (m m' : machine) : Prop := mm m' = mm m /\ fl m' = fl m /\ forall q, ~ T q -> rg m' q = rg m q.

Lemma input_ok : forall al f0 e x r tmp c m, asm_reg_input al (ihome e) (snd e) r tmp = Ok c -> finds al f0 (rg m) -> base_ok (d_ref (snd e)) -> ready f0 (mm m) e x ->
  (forall h, ihome e = Slot h -> h = d_ref (snd e)) -> (forall h, ihome e = Own h -> h = d_ref (snd e)) -> (forall h, ihome e = Copy h -> h = d_ref (snd e)) ->
  exists m', exec c m = Some m' /\ quiet (fun q => q = r \/ q = tmp) m m' /\
  ((forall h, ihome e = Slot h -> d_bits (snd e) = None) -> rg m' r mod two (8 * d_size (snd e)) = x_val x).
Proof.
  intros al f0 e x r tmp c m H FD BO RD H1 H2 H3. unfold asm_reg_input in H. bi H. destruct a as [ref k].
  destruct ((gp r && gp_size (d_size (snd e))) || (xmm r && xmm_size (d_size (snd e)))); [|discriminate H]. injection H as <-.
  set (n := d_size (snd e)) in *.
  assert (LAST : forall m1, exists m', exec [Ld n r ref] m1 = Some m' /\ quiet (fun q => q = r) m1 m' /\ rg m' r mod two (8 * n) = rd (mm m1) (addr (rg m1) ref) n).
  { intros m1. eexists. split; [reflexivity|]. split.
    - split; [reflexivity|]. split; [reflexivity|]. intros q Q. cbn [rg]. apply set_other. exact Q.
    - cbn [rg]. rewrite set_same. eapply low_ok; [apply rd_range|]. destruct (gp r && (n <? 4)%nat); [left; reflexivity|right; reflexivity]. }
  unfold ready in RD. fold n in RD. unfold asm_gen_ptr in E. destruct (ihome e) as [h|h|h|] eqn:IH; try discriminate E; injection E as <- <-.
  - destruct RD as [RA RV]. destruct (LAST m) as [m' [X [Q V]]]. exists m'. split; [exact X|]. split.
    + destruct Q as [Q1 [Q2 Q3]]. split; [exact Q1|]. split; [exact Q2|]. intros q N. apply Q3. intros ->. apply N. left. reflexivity.
    + intros _. rewrite V, (finds_addr al f0), RA, RV; auto. rewrite (H2 h eq_refl). exact BO.
  - destruct RD as [RA RV]. set (m1 := Mc (set (rg m) tmp (x_at x)) (mm m) (fl m)). destruct (LAST m1) as [m' [X [Q V]]]. exists m'. split.
    { cbn [app exec exec1]. rewrite andb_false_r, (finds_addr al f0), RA; auto. rewrite (H1 h eq_refl). exact BO. }
    split.
    + destruct Q as [Q1 [Q2 Q3]]. split; [exact Q1|]. split; [exact Q2|]. intros q N. rewrite Q3 by (intros ->; apply N; left; reflexivity). apply set_other. intros ->. apply N. right. reflexivity.
    + intros NB. rewrite V. cbn [addr m1 rg mm]. rewrite set_same, Z.add_0_r. apply RV. apply (NB h). reflexivity.
  - destruct (LAST m) as [m' [X [Q V]]]. exists m'. split; [exact X|]. split.
    + destruct Q as [Q1 [Q2 Q3]]. split; [exact Q1|]. split; [exact Q2|]. intros q N. apply Q3. intros ->. apply N. left. reflexivity.
    + intros _. rewrite V, (finds_addr al f0), RD; auto. rewrite (H3 h eq_refl). exact BO.
Qed.
Lemma home_ref : forall e h, ihome e = Own h \/ ihome e = Slot h \/ ihome e = Copy h -> h = d_ref (snd e).
Proof.
  intros [[out a] d] h H. cbn [ihome home_of snd] in *. unfold home_of in H. destruct (a_memop _); [|destruct out; [|destruct (o_kind a)]]; intuition congruence.
Qed.

(** * A list of operands *)
Lemma each_ok : forall (f : item -> res (list instr)) (I : machine -> Prop) (T : item * obj -> nat -> Prop) (Q : item * obj -> (nat -> Z) -> Prop) l c,
  each f (map fst l) = Ok c ->
  (forall e k m, In e l -> f (fst e) = Ok k -> I m -> exists m', exec k m = Some m' /\ I m' /\ quiet (T e) m m' /\ Q e (rg m')) ->
  ForallOrdPairs (fun e e' => forall g g', Q e g -> (forall q, ~ T e' q -> g' q = g q) -> Q e g') l ->
  forall m, I m -> exists m', exec c m = Some m' /\ I m' /\ quiet (fun q => exists e, In e l /\ T e q) m m' /\ forall e, In e l -> Q e (rg m').
Proof.
  intros f I T Q l. induction l as [|e l IH]; intros c H ST OP m Im; cbn [map each] in H.
  - injection H as <-. exists m. split; [reflexivity|]. split; [exact Im|]. split; [|intros e []]. split; [reflexivity|]. split; [reflexivity|]. intros q _. reflexivity.
  - bi H. bi H. injection H as <-. inversion OP as [|e0 l0 FA OP' EQ]; subst e0 l0.
    destruct (ST e a m (or_introl eq_refl) E Im) as [m1 [X1 [I1 [[M1 [F1 R1]] Q1]]]].
    destruct (IH a0 eq_refl) with (m := m1) as [m2 [X2 [I2 [[M2 [F2 R2]] Q2]]]]; [intros e' k m' In'; apply ST; right; exact In'|exact OP'|exact I1|].
    exists m2. split; [rewrite exec_app, X1; exact X2|]. split; [exact I2|]. split.
    + split; [congruence|]. split; [congruence|]. intros q N. rewrite R2, R1; [reflexivity| |].
      * intros Y. apply N. exists e. split; [left; reflexivity|exact Y].
      * intros [e' [Y Z]]. apply N. exists e'. split; [right; exact Y|exact Z].
    + intros e' [<-|Y]; [|exact (Q2 e' Y)].
      (* kept by all of the rest *)
      clear -Q1 FA X2 E0 ST I1 OP'. revert m1 m2 a0 X2 E0 I1 Q1 FA ST OP'. induction l as [|e' l IHl]; intros m1 m2 a0 X2 E0 I1 Q1 FA ST OP'; cbn [map each] in E0.
      * injection E0 as <-. injection X2 as <-. exact Q1.
      * bi E0. bi E0. injection E0 as <-. inversion FA as [|y k A B EQ]; subst y k. inversion OP' as [|y k A' B' EQ]; subst y k.
        destruct (ST e' a m1 (or_intror (or_introl eq_refl)) E I1) as [m3 [X3 [I3 [[M3 [F3 R3]] Q3]]]]. rewrite exec_app, X3 in X2.
        apply (IHl m3 m2 a1); auto.
        { apply (A (rg m1)); [exact Q1|exact R3]. }
        { intros y k m' [<-|Iy]; [apply ST; left; reflexivity|apply ST; right; right; exact Iy]. }
Qed.

(** * What is known of the plan *)
Definition kop (e : item * obj) : op := snd (fst (fst e)).
Definition kout (e : item * obj) : bool := fst (fst (fst e)).
Definition kside (e : item * obj) : side := snd (fst e).
Definition ld (a : op) : nat := match o_kind a with KMem => o_reg a | KReg => if starts "=" (o_src a) then 0%nat else o_reg a | _ => 0%nat end.
Record known (p : plan) (l : list (item * obj)) (U Uo : nat -> Prop) : Prop := {
  n_used : forall e, In e l -> o_reg (kop e) <> 0%nat -> U (o_reg (kop e));
  n_out : forall e, In e l -> kout e = true -> o_kind (kop e) = KReg -> o_reg (kop e) <> 0%nat /\ Uo (o_reg (kop e));
  n_io : forall e, In e l -> kout e = negb (input (o_src (kop e)));
  n_mem : forall e, In e l -> o_kind (kop e) = KMem -> o_reg (kop e) <> 0%nat -> gp (o_reg (kop e)) = true;
  n_own : forall e, In e l -> o_kind (kop e) = KMem -> o_reg (kop e) = 0%nat -> a_memop (snd (o_src (kop e))) = true;
  n_st : forall e, In e l -> o_kind (kop e) = KReg -> gp (o_reg (kop e)) = true \/ xmm (o_reg (kop e)) = true;
  n_sp : ~ U SP;
  n_sub : forall r, Uo r -> U r;
  n_alt1 : (p_alt1 p = 0%nat /\ ~ U BP) \/ ((AX <= p_alt1 p <= R15)%nat /\ ~ U (p_alt1 p));
  n_alt2 : (p_alt2 p = 0%nat /\ ~ U BX) \/ ((AX <= p_alt2 p <= R15)%nat /\ ~ U (p_alt2 p) /\ p_alt2 p <> p_alt1 p);
  n_mask : forall r, (R12 <= r <= R15)%nat -> U r \/ r = p_alt1 p \/ r = p_alt2 p -> In r (p_mask p) }.
Lemma gp_range : forall r, gp r = true <-> (1 <= r <= 16)%nat.
Proof. intros r. unfold gp, within. rewrite andb_true_iff, !Nat.leb_le. unfold AX, SP. lia. Qed.
Lemma xmm_range : forall r, xmm r = true <-> (17 <= r <= 32)%nat.
Proof. intros r. unfold xmm, within. rewrite andb_true_iff, !Nat.leb_le. unfold XMM0. lia. Qed.
Lemma fop_weak : forall A (R R' : A -> A -> Prop) l, (forall a b, In a l -> In b l -> R a b -> R' a b) -> ForallOrdPairs R l -> ForallOrdPairs R' l.
Proof.
  intros A R R' l. induction l as [|a l IH]; intros H F; [constructor|]. inversion F as [|x y FA FO EQ]; subst. constructor.
  - rewrite Forall_forall in *. intros b B. apply H; [left; reflexivity|right; exact B|auto].
  - apply IH; [intros x y X Y; apply H; right; assumption|exact FO].
Qed.
Section Plan.
Variables (p : plan) (l : list (item * obj)) (U Uo : nat -> Prop).
Hypothesis K : known p l U Uo.
Lemma alt_bp : alt_ptr p BP = (if Nat.eqb (p_alt1 p) 0 then BP else p_alt1 p).
Proof. unfold alt_ptr. destruct (Nat.eqb (p_alt1 p) 0); cbn [negb andb]; [destruct (negb (p_alt2 p =? 0)%nat); reflexivity|reflexivity]. Qed.
Lemma alt_bx : alt_ptr p BX = (if Nat.eqb (p_alt2 p) 0 then BX else p_alt2 p).
Proof. unfold alt_ptr. change (BX =? BP)%nat with false. rewrite andb_false_r. destruct (Nat.eqb (p_alt2 p) 0); reflexivity. Qed.
Lemma alt_unused : ~ U (alt_ptr p BP) /\ ~ U (alt_ptr p BX).
Proof.
  rewrite alt_bp, alt_bx. split.
  - destruct (n_alt1 _ _ _ _ K) as [[-> N]|[R N]]; [exact N|]. destruct (Nat.eqb_spec (p_alt1 p) 0); [unfold AX in R; lia|exact N].
  - destruct (n_alt2 _ _ _ _ K) as [[-> N]|[R [N _]]]; [exact N|]. destruct (Nat.eqb_spec (p_alt2 p) 0); [unfold AX in R; lia|exact N].
Qed.
Lemma ld_used : forall e, In e l -> ld (kop e) <> 0%nat -> U (ld (kop e)).
Proof.
  intros e I N. unfold ld in *. destruct (o_kind (kop e)); try (destruct (N eq_refl)); [apply (n_used _ _ _ _ K); assumption|].
  destruct (starts "=" (o_src (kop e))); [destruct (N eq_refl)|]. apply (n_used _ _ _ _ K); assumption.
Qed.
Lemma finds_keep : forall f0 f g, finds (alt_ptr p) f0 f -> (forall q, ~ U q -> g q = f q) -> finds (alt_ptr p) f0 g.
Proof. intros f0 f g [A B] H. destruct alt_unused as [N1 N2]. split; rewrite H; assumption. Qed.
Definition value (e : item * obj) (g : nat -> Z) : Prop :=
  d_bits (kside e) = None \/ input (o_src (kop e)) = true -> g (ld (kop e)) mod two (8 * d_size (kside e)) = x_val (snd e).
Definition apart2 (e e' : item * obj) : Prop := ld (kop e) <> 0%nat -> ld (kop e) <> ld (kop e').
Hypothesis DST : ForallOrdPairs apart2 l.
Variables (m0 : machine) (F : nat) (sv : nat -> Z).
Let f0 := rg m0.
Hypothesis LAY : layout f0 F sv l.
Lemma base_in : forall e, In e l -> base_ok (d_ref (snd (fst e))).
Proof. intros [e x] I. exact (y_base _ _ _ _ LAY e x I). Qed.
Lemma no_slot : forall e, In e l -> o_kind (kop e) = KReg -> d_bits (kside e) = None \/ input (o_src (kop e)) = true -> forall h, ihome (fst e) = Slot h -> d_bits (snd (fst e)) = None.
Proof.
  intros e I KR B h H. destruct B as [B|B]; [exact B|]. pose proof (n_io _ _ _ _ K e I) as IO. rewrite B in IO. destruct e as [[[out a] d] x]. cbn [kop kout fst snd ihome] in *.
  rewrite IO in H. cbn [negb] in H. unfold home_of in H. rewrite KR in H. destruct (a_memop _); discriminate H.
Qed.
Lemma gi_ld : forall a, get_input_reg a <> 0%nat -> o_kind a = KReg /\ ld a = get_input_reg a.
Proof.
  intros a H. unfold get_input_reg, ld in *. destruct (o_kind a); cbn [is_kreg andb] in *; try (destruct (H eq_refl)). destruct (starts "=" (o_src a)); cbn [negb] in *; [destruct (H eq_refl)|auto].
Qed.
Lemma one_input : forall al tmp c m e, In e l -> get_input_reg (kop e) <> 0%nat -> asm_reg_input al (ihome (fst e)) (kside e) (get_input_reg (kop e)) tmp = Ok c ->
  finds al f0 (rg m) -> ready f0 (mm m) (fst e) (snd e) -> exists m', exec c m = Some m' /\ quiet (fun q => q = ld (kop e) \/ q = tmp) m m' /\ value e (rg m').
Proof.
  intros al tmp c m e I N H FD RD. destruct (gi_ld _ N) as [KR LD]. rewrite LD.
  destruct (input_ok al f0 (fst e) (snd e) (get_input_reg (kop e)) tmp c m) as [m' [X [Q V]]]; auto.
  - apply base_in. exact I.
  - intros h Hh. apply home_ref. auto.
  - intros h Hh. apply home_ref. auto.
  - intros h Hh. apply home_ref. auto.
  - exists m'. split; [exact X|]. split; [exact Q|]. intros B. rewrite LD. apply V. intros h. exact (no_slot e I KR B h).
Qed.
Definition Tx (e : item * obj) (q : nat) : Prop := xmm (get_input_reg (kop e)) = true /\ (q = ld (kop e) \/ q = DX).
Definition Qx (e : item * obj) (g : nat -> Z) : Prop := xmm (get_input_reg (kop e)) = true -> value e g.
Lemma xmm_nz : forall r, xmm r = true -> r <> 0%nat. Proof. intros r H ->. discriminate H. Qed.
Lemma gp_nz : forall r, gp r = true -> r <> 0%nat. Proof. intros r H ->. discriminate H. Qed.
Lemma xmm_phase : forall c, each xmm_input (map fst l) = Ok c -> (forall e, In e l -> ready f0 (mm m0) (fst e) (snd e)) ->
  exists m', exec c m0 = Some m' /\ quiet (fun q => exists e, In e l /\ Tx e q) m0 m' /\ forall e, In e l -> Qx e (rg m').
Proof.
  intros c H RD. destruct (each_ok xmm_input (fun m => finds (fun r => r) f0 (rg m) /\ mm m = mm m0) Tx Qx l c H) with (m := m0) as [m' [X [_ [Q V]]]].
  - intros e k m I Hk [FD MM]. destruct e as [[[out a] d] x]. unfold xmm_input in Hk. cbn [fst] in Hk.
    destruct (xmm (get_input_reg a)) eqn:XR.
    + destruct (one_input (fun r => r) DX k m (out, a, d, x)) as [m' [X [Q V]]]; auto; [apply xmm_nz; exact XR|rewrite MM; apply (RD _ I)|].
      exists m'. split; [exact X|]. destruct Q as [Q1 [Q2 Q3]]. split.
      { split; [|congruence]. pose proof (xmm_nz _ XR) as NZ. destruct (gi_ld _ NZ) as [_ LD]. cbn [kop fst snd] in *. apply xmm_range in XR. rewrite LD in Q3. destruct FD as [A B]. split; rewrite Q3; auto; unfold BP, BX, DX; lia. }
      split; [|intros _; exact V]. split; [exact Q1|]. split; [exact Q2|]. intros q N. apply Q3. intros Y. apply N. split; [exact XR|exact Y].
    + injection Hk as <-. exists m. split; [reflexivity|]. split; [auto|]. split; [split; [reflexivity|]; split; [reflexivity|]; intros; reflexivity|]. intros Y. cbn [kop fst snd] in Y. congruence.
  - apply fop_weak with (2 := DST). intros e e' I I' A g g' Q H1 XR B. specialize (Q XR B). pose proof (xmm_nz _ XR) as NZ. destruct (gi_ld _ NZ) as [_ LD]. rewrite LD in *.
    rewrite H1; [exact Q|]. intros [XR' [Y|Y]]; [|apply xmm_range in XR; rewrite Y in XR; unfold DX in XR; lia]. apply (A ltac:(rewrite LD; exact NZ)). rewrite LD. exact Y.
  - split; [split; reflexivity|reflexivity].
  - exists m'. split; [exact X|]. split; [exact Q|exact V].
Qed.
Definition Tg (e : item * obj) (q : nat) : Prop := q = ld (kop e) /\ gp q = true.
Definition Qg (e : item * obj) (g : nat -> Z) : Prop :=
  (gp (get_input_reg (kop e)) = true -> value e g) /\ (o_kind (kop e) = KMem -> o_reg (kop e) <> 0%nat -> g (o_reg (kop e)) = x_at (snd e)).
Lemma gp_phase : forall c m1, each (gp_input p) (map fst l) = Ok c -> (forall e, In e l -> ready f0 (mm m1) (fst e) (snd e)) -> finds (alt_ptr p) f0 (rg m1) ->
  exists m', exec c m1 = Some m' /\ finds (alt_ptr p) f0 (rg m') /\ quiet (fun q => exists e, In e l /\ Tg e q) m1 m' /\ forall e, In e l -> Qg e (rg m').
Proof.
  intros c m1 H RD FD1. destruct (each_ok (gp_input p) (fun m => finds (alt_ptr p) f0 (rg m) /\ mm m = mm m1) Tg Qg l c H) with (m := m1) as [m' [X [[FD _] [Q V]]]].
  - intros e k m I Hk [FD MM]. assert (USED : forall q, ~ U q -> ~ Tg e q).
    { intros q N [-> G]. apply N. apply (ld_used e I). apply gp_nz. exact G. }
    assert (FK : forall m', quiet (Tg e) m m' -> finds (alt_ptr p) f0 (rg m') /\ mm m' = mm m1).
    { intros m' [Q1 [Q2 Q3]]. split; [|congruence]. apply finds_keep with (1 := FD). intros q N. apply Q3. apply USED. exact N. }
    pose proof (RD e I) as RDe. destruct e as [[[out a] d] x]. unfold gp_input in Hk. cbn [fst] in Hk. bi Hk. bi Hk. injection Hk as <-.
    destruct (gp (get_input_reg a)) eqn:GR.
    + pose proof (gp_nz _ GR) as NZ. destruct (gi_ld _ NZ) as [KR LD]. rewrite KR in E. injection E as <-.
      destruct (one_input (alt_ptr p) (get_input_reg a) a1 m (out, a, d, x)) as [m' [X [Q V]]]; auto; [rewrite MM; exact RDe|]. cbn [kop fst snd] in Q. rewrite LD in Q.
      assert (Q' : quiet (Tg (out, a, d, x)) m m').
      { destruct Q as [Q1 [Q2 Q3]]. split; [exact Q1|]. split; [exact Q2|]. intros q N. apply Q3. intros Y. apply N. assert (q = get_input_reg a) by (destruct Y; assumption). subst q. split; [cbn [kop fst snd]; congruence|exact GR]. }
      exists m'. split; [exact X|]. split; [apply FK; exact Q'|]. split; [exact Q'|]. split; [intros _; exact V|]. cbn [kop fst snd]. rewrite KR. discriminate.
    + injection E0 as <-. rewrite app_nil_r. unfold Qg. cbn [kop fst snd]. rewrite GR.
      assert (NONE : a0 = [] -> ~ (o_kind a = KMem /\ o_reg a <> 0%nat) -> exists m', exec a0 m = Some m' /\ (finds (alt_ptr p) f0 (rg m') /\ mm m' = mm m1) /\
        quiet (Tg (out, a, d, x)) m m' /\ (false = true -> value (out, a, d, x) (rg m')) /\ (o_kind a = KMem -> o_reg a <> 0%nat -> rg m' (o_reg a) = x_at x)).
      { intros -> NM. exists m. split; [reflexivity|]. split; [auto|]. split; [split; [reflexivity|]; split; [reflexivity|]; intros; reflexivity|]. split; [discriminate|]. intros X Y. destruct NM; auto. }
      destruct (o_kind a) eqn:KA; try (injection E as <-; apply NONE; [reflexivity|intros [X _]; discriminate X]).
      destruct (o_reg a) as [|r] eqn:RA; [injection E as <-; apply NONE; [reflexivity|intros [_ X]; apply X; reflexivity]|].
      destruct (ihome (out, a, d)) as [h|h|h|] eqn:IH; try discriminate E. injection E as <-.
      assert (BH : h = d_ref d) by (apply (home_ref (out, a, d)); auto). unfold ready in RDe. cbn [fst snd] in RDe. rewrite IH in RDe. destruct RDe as [RA1 _].
      assert (AD : rd (mm m) (addr (rg m) (via (alt_ptr p) h)) 8 = x_at x).
      { rewrite MM, (finds_addr _ f0) by (auto; rewrite BH; apply (base_in (out, a, d, x) I)). exact RA1. }
      set (m' := Mc (set (rg m) (Datatypes.S r) (x_at x)) (mm m) (fl m)). exists m'. split; [cbn [exec exec1]; rewrite andb_false_r, AD; reflexivity|].
      assert (Q' : quiet (Tg (out, a, d, x)) m m').
      { split; [reflexivity|]. split; [reflexivity|]. intros q N. apply set_other. intros ->. apply N. split; [unfold ld; cbn [kop fst snd]; rewrite KA, RA; reflexivity|].
        pose proof (n_mem _ _ _ _ K _ I) as NM. cbn [kop fst snd] in NM. rewrite RA in NM. apply NM; [exact KA|discriminate]. }
      split; [apply FK; exact Q'|]. split; [exact Q'|]. split; [discriminate|]. intros _ _. apply set_same.
  - apply fop_weak with (2 := DST). intros e e' I I' A g g' [Q1 Q2] H1. split.
    + intros GR B. specialize (Q1 GR B). pose proof (gp_nz _ GR) as NZ. destruct (gi_ld _ NZ) as [_ LD]. rewrite LD in *. rewrite H1; [exact Q1|]. intros [Y _]. apply A; congruence.
    + intros KM RN. rewrite <- (Q2 KM RN). apply H1. intros [Y _]. assert (LD : ld (kop e) = o_reg (kop e)) by (unfold ld; rewrite KM; reflexivity). apply A; congruence.
  - split; [exact FD1|reflexivity].
  - exists m'. split; [exact X|]. split; [exact FD|]. split; [exact Q|exact V].
Qed.

(** * All of it *)
Lemma masked_in : forall r, In r (masked p) -> (R12 <= r <= R15)%nat.
Proof. intros r H. unfold masked in H. apply filter_In in H as [H _]. unfold range in H. apply in_seq in H. unfold R12, R15 in *. lia. Qed.
Lemma masked_nodup : NoDup (masked p).
Proof. unfold masked. apply NoDup_filter. apply seq_NoDup. Qed.
Definition frames : list nat := when (p_alt1 p) [BP] ++ when (p_alt2 p) [BX].
Lemma frames_in : forall r, In r frames -> (r = BP /\ p_alt1 p <> 0%nat) \/ (r = BX /\ p_alt2 p <> 0%nat).
Proof.
  intros r H. unfold frames, when in H. apply in_app_iff in H as [H|H].
  - destruct (Nat.eqb_spec (p_alt1 p) 0); [destruct H|]. destruct H as [<-|[]]. auto.
  - destruct (Nat.eqb_spec (p_alt2 p) 0); [destruct H|]. destruct H as [<-|[]]. auto.
Qed.
Lemma frames_nodup : NoDup frames.
Proof. unfold frames, when. destruct (Nat.eqb (p_alt1 p) 0), (Nat.eqb (p_alt2 p) 0); cbn [app]; repeat constructor; cbn; intuition discriminate. Qed.
Lemma keep_m : forall r, In r (masked p) -> In r keepers.
Proof. intros r H. apply masked_in in H. unfold R12, R15, keepers in *. cbn [In]. lia. Qed.
Lemma keep_f : forall r, In r frames -> In r keepers.
Proof. intros r H. apply frames_in in H. unfold keepers. cbn [In]. intuition. Qed.
Lemma when_map : forall A B (g : A -> B) n k, when n (map g k) = map g (when n k).
Proof. intros A B g n k. unfold when. destruct (Nat.eqb n 0); reflexivity. Qed.
Lemma frame_code : push_frame_ptr p F sv = (when (p_alt1 p) [Mov (p_alt1 p) BP] ++ when (p_alt2 p) [Mov (p_alt2 p) BX]) ++ stores (alt_ptr p F) sv frames.
Proof.
  unfold push_frame_ptr, stores, frames. rewrite map_app, <- !when_map. cbn [map]. rewrite !app_assoc. reflexivity.
Qed.
Lemma movs_ok : forall m, exists m', exec (when (p_alt1 p) [Mov (p_alt1 p) BP] ++ when (p_alt2 p) [Mov (p_alt2 p) BX]) m = Some m' /\ mm m' = mm m /\
  (rg m BP = f0 BP -> rg m BX = f0 BX -> finds (alt_ptr p) f0 (rg m')) /\ (forall q, q = 0%nat \/ (q <> p_alt1 p /\ q <> p_alt2 p) -> rg m' q = rg m q).
Proof.
  intros m. unfold when. pose proof (n_alt1 _ _ _ _ K) as A1. pose proof (n_alt2 _ _ _ _ K) as A2. unfold finds. rewrite alt_bp, alt_bx.
  destruct (Nat.eqb_spec (p_alt1 p) 0) as [Z1|Z1]; destruct (Nat.eqb_spec (p_alt2 p) 0) as [Z2|Z2]; cbn [app].
  - exists m. split; [reflexivity|]. split; [reflexivity|]. split; [auto|reflexivity].
  - destruct A2 as [[A2 _]|[A2 _]]; [contradiction|]. eexists. split; [reflexivity|]. cbn [mm rg]. split; [reflexivity|]. split.
    + intros X Y. rewrite set_same, set_other by (unfold BP, R15 in *; lia). auto.
    + intros q [-> |[_ N]]; apply set_other; auto.
  - destruct A1 as [[A1 _]|[A1 _]]; [contradiction|]. eexists. split; [reflexivity|]. cbn [mm rg]. split; [reflexivity|]. split.
    + intros X Y. rewrite set_same, set_other by (unfold BX, R15 in *; lia). auto.
    + intros q [-> |[N _]]; apply set_other; auto.
  - destruct A1 as [[A1 _]|[A1 _]]; [contradiction|]. destruct A2 as [[A2 _]|[A2 [_ A3]]]; [contradiction|]. eexists. split; [reflexivity|]. cbn [mm rg]. split; [reflexivity|]. split.
    + intros X Y. rewrite set_same. rewrite (set_other _ (p_alt2 p)) by auto. rewrite set_same, set_other by (unfold BX, R15 in *; lia). auto.
    + intros q [-> |[N1 N2]]; rewrite !set_other; auto.
Qed.
Lemma ready_keep : forall M M', (forall a, (forall r, In r keepers -> ~ inside a (f0 F + sv r) 8) -> M' a = M a) -> forall e, In e l -> ready f0 M (fst e) (snd e) -> ready f0 M' (fst e) (snd e).
Proof.
  intros M M' H [e x] I RD. pose proof (fun r => y_slots _ _ _ _ LAY e x r I) as YS. cbn [fst snd] in *. unfold ready in *.
  assert (KR : forall a n, (forall r, In r keepers -> disjoint a n (f0 F + sv r) 8) -> rd M' a n = rd M a n).
  { intros a n D. apply rd_ext. intros y Y. apply H. intros r R. specialize (D r R). unfold inside, disjoint in *. lia. }
  destruct (ihome e) as [h|h|h|].
  - destruct RD as [A B]. split; [exact A|]. rewrite KR; auto.
  - destruct RD as [A B]. split; [rewrite KR; [exact A|intros r R; apply YS; exact R]|]. intros Z. rewrite KR; [auto|intros r R; apply YS; exact R].
  - rewrite KR; auto.
  - exact RD.
Qed.
Record begun (m1 : machine) : Prop := {
  h_entry : forall e, In e l -> entry (rg m1) (via (alt_ptr p)) (o_src (kop e)) (kside e) (loc_of (kop e)) (snd e);
  h_finds : finds (alt_ptr p) f0 (rg m1);
  h_mem : forall a, (forall r, In r keepers -> ~ inside a (f0 F + sv r) 8) -> mm m1 a = mm m0 a;
  h_saved : forall r, In r (masked p ++ frames) -> rd (mm m1) (f0 F + sv r) 8 = f0 r;
  h_regs : forall q, In q saved -> ~ U q -> q <> p_alt1 p -> q <> p_alt2 p -> rg m1 q = f0 q }.
Lemma begin_ok : forall x g, each xmm_input (map fst l) = Ok x -> each (gp_input p) (map fst l) = Ok g -> (forall e, In e l -> ready f0 (mm m0) (fst e) (snd e)) ->
  (forall r, In r keepers -> 0 <= f0 r < two 64) ->
  exists m1, exec (x ++ push_clobbers p F sv ++ push_frame_ptr p F sv ++ g) m0 = Some m1 /\ begun m1.
Proof.
  intros x g HX HG RD WF. destruct (xmm_phase x HX RD) as [mA [XA [[MA [FA RA]] QA]]].
  assert (RA' : forall q, gp q = true -> q <> DX -> rg mA q = f0 q).
  { intros q G N. apply RA. intros [e [_ [XR [-> | ->]]]]; [|contradiction]. destruct (gi_ld _ (xmm_nz _ XR)) as [_ LD]. rewrite LD in G. apply gp_range in G. apply xmm_range in XR. lia. }
  assert (KG : forall q, In q keepers -> gp q = true /\ q <> DX) by (intros q Q; cbn in Q; intuition; subst; try reflexivity; discriminate).
  assert (FK : In F keepers) by (destruct (y_frame _ _ _ _ LAY) as [-> | ->]; cbn; auto 10).
  assert (RK : forall q, In q keepers -> rg mA q = f0 q) by (intros q Q; destruct (KG q Q); auto).
  destruct (stores_ok F sv (masked p) mA masked_nodup) as [mB [XB [RB [FB [MB VB]]]]].
  { intros r q R Q N. rewrite (RK F FK). apply (y_saves _ _ _ _ LAY); auto using keep_m. }
  rewrite (RK F FK) in MB, VB.
  destruct (movs_ok mB) as [mC [XC [MC [FC RC]]]].
  assert (FC' : finds (alt_ptr p) f0 (rg mC)) by (apply FC; rewrite RB; apply RK; cbn; auto 10). clear FC.
  assert (BF : rg mC (alt_ptr p F) = f0 F) by (destruct FC' as [A B]; destruct (y_frame _ _ _ _ LAY) as [-> | ->]; assumption).
  destruct (stores_ok (alt_ptr p F) sv frames mC frames_nodup) as [mD [XD [RD' [FD' [MD VD]]]]].
  { intros r q R Q N. rewrite BF. apply (y_saves _ _ _ _ LAY); auto using keep_f. }
  rewrite BF in MD, VD.
  assert (OUT : forall a, (forall r, In r keepers -> ~ inside a (f0 F + sv r) 8) -> mm mD a = mm m0 a).
  { intros a N. rewrite MD, MC, MB, MA by auto using keep_m, keep_f. reflexivity. }
  destruct (gp_phase g mD HG) as [m1 [X1 [F1 [[M1 [_ R1]] Q1]]]].
  { intros e I. apply ready_keep with (M := mm m0); auto. }
  { rewrite RD'. exact FC'. }
  exists m1. split.
  { rewrite exec_app, XA, exec_app. change (push_clobbers p F sv) with (stores F sv (masked p)). rewrite XB, frame_code, <- app_assoc, exec_app, XC, exec_app, XD. exact X1. }
  assert (ALT : forall q, q <> 0%nat -> ~ gp q = true -> q <> p_alt1 p /\ q <> p_alt2 p).
  { intros q Z N. split; intros ->; apply N; apply gp_range.
    - destruct (n_alt1 _ _ _ _ K) as [[Y _]|[Y _]]; [contradiction|unfold AX, R15 in *; lia].
    - destruct (n_alt2 _ _ _ _ K) as [[Y _]|[Y _]]; [contradiction|unfold AX, R15 in *; lia]. }
  constructor.
  - intros e I. unfold entry, loc_of. destruct (o_kind (kop e)) eqn:KK; auto.
    + destruct (o_reg (kop e)) as [|r] eqn:RR.
      * rewrite (finds_addr _ f0) by (auto; apply base_in; exact I). pose proof (RD e I) as Y. unfold ready in Y.
        assert (OWN : ihome (fst e) = Own (d_ref (kside e))).
        { pose proof (n_own _ _ _ _ K e I KK RR) as N. destruct e as [[[out a] d] o]. cbn [fst snd ihome kop kside] in *. unfold home_of. rewrite N. reflexivity. }
        rewrite OWN in Y. exact (proj1 Y).
      * rewrite <- RR. apply (proj2 (Q1 e I)); [exact KK|]. rewrite RR. discriminate.
    + intros S B. assert (GI : get_input_reg (kop e) = o_reg (kop e)) by (unfold get_input_reg; rewrite KK, S; reflexivity).
      assert (LD : ld (kop e) = o_reg (kop e)) by (unfold ld; rewrite KK, S; reflexivity).
      rewrite <- LD. destruct (n_st _ _ _ _ K e I KK) as [G|G].
      * apply (proj1 (Q1 e I)); [rewrite GI; exact G|exact B].
      * assert (NG : ~ gp (ld (kop e)) = true) by (rewrite LD; intros Y; apply gp_range in Y; apply xmm_range in G; lia).
        assert (NZ : ld (kop e) <> 0%nat) by (rewrite LD; apply xmm_nz; exact G).
        rewrite R1, RD', RC, RB; [apply (QA e I); [rewrite GI; exact G|exact B]|right; apply ALT; auto|]. intros [e' [_ [_ Y]]]. contradiction.
  - exact F1.
  - intros a N. rewrite M1. apply OUT. exact N.
  - intros r R. rewrite M1. apply in_app_iff in R as [R|R].
    + rewrite (rd_ext 8 (mm mD) (mm mB)).
      * rewrite (VB r R), (RK r (keep_m r R)). apply Z.mod_small. apply WF. apply keep_m. exact R.
      * intros a A. rewrite MD, MC; [reflexivity|]. intros q Q. assert (N : r <> q) by (intros <-; apply masked_in in R; apply frames_in in Q; unfold R15, BP, BX in *; lia).
        pose proof (y_saves _ _ _ _ LAY r q (keep_m r R) (keep_f q Q) N) as D. unfold disjoint, inside in *. lia.
    + rewrite (VD r R). assert (NA : rg mC r = f0 r).
      { rewrite RC, RB; [apply RK; apply keep_f; exact R|]. right. apply frames_in in R.
        destruct (n_alt1 _ _ _ _ K) as [[Y1 _]|[Y1 _]]; destruct (n_alt2 _ _ _ _ K) as [[Y2 _]|[Y2 _]]; rewrite ?Y1, ?Y2; unfold BP, BX, R15 in *; lia. }
      rewrite NA. apply Z.mod_small. apply WF. apply keep_f. exact R.
  - intros q Q N A1 A2. assert (GQ : gp q = true /\ q <> DX) by (cbn in Q; intuition; subst; try reflexivity; discriminate).
    rewrite R1, RD', RC, RB; [apply RA'; apply GQ|auto|]. intros [e [I [-> G]]]. apply N. apply (ld_used e I). apply gp_nz. exact G.
Qed.
End Plan.
