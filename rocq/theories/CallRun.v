From Coq Require Import ZArith List Bool Lia.
From Verif Require Import Base BitLemmas X86 Sse MemSpec MemModel MemProofs CgLemmas FrameModel CallSpec CallModel CallProofs CallClass CallPlan InitEmit.
Import ListNotations.
Local Open Scope Z_scope.
Local Opaque natural.

(** ** Parts of an argument *)
Definition part := (Z * Z * bool)%type. (* offset, bytes, xmm register *)
Definition parts (t : aty) : list part :=
  match t with
  | ARec n _ _ => (0, Z.min 8 n, fpe t 0) :: if 8 <? n then [(8, n - 8, fpe t 1)] else []
  | AFloat => [(0, 4, true)]
  | ADouble => [(0, 8, true)]
  | _ => [(0, asize t, false)]
  end.
Definition gpar (l : list part) : nat := length (filter (fun p => negb (snd p)) l).
Definition fpar (l : list part) : nat := length (filter (fun p => snd p) l).

(** The registers from [gp] and [fp] on hold the parts of the bytes [val]. *)
Fixpoint carries (m : xmach) (l : list part) (gp fp : nat) (val : Z -> Z) : Prop :=
  match l with
  | [] => True
  | (o, n, true) :: r =>
      (forall k, 0 <= k < n -> byte_eq (xr m fp / 2 ^ (8 * k)) (val (o + k))) /\ carries m r gp (S fp) val
  | (o, n, false) :: r =>
      (exists g, nth_error int_regs gp = Some g /\
        forall k, 0 <= k < n -> byte_eq ((rg (im m) g mod 2 ^ 64) / 2 ^ (8 * k)) (val (o + k))) /\ carries m r (S gp) fp val
  end.

(** Registers before [gp] and [fp] and all others are left alone, memory too. *)
Definition kept (gp fp : nat) (m m' : xmach) : Prop :=
  mm (im m') = mm (im m) /\ (forall r, ~ In r (skipn gp int_regs) -> rg (im m') r = rg (im m) r) /\
  (forall x, (x < fp)%nat -> xr m' x = xr m x).
Lemma kept_refl : forall gp fp m, kept gp fp m m.
Proof. repeat split; reflexivity. Qed.
Lemma kept_trans : forall gp fp a b c, kept gp fp a b -> kept gp fp b c -> kept gp fp a c.
Proof.
  intros gp fp a b c (A1 & A2 & A3) (B1 & B2 & B3). split; [congruence|]. split; intros.
  - rewrite B2, A2; auto. - rewrite B3, A3; auto.
Qed.
Lemma skipn_incl : forall {A} (l : list A) a b x, (a <= b)%nat -> In x (skipn b l) -> In x (skipn a l).
Proof.
  intros A l a b x H I. replace b with (b - a + a)%nat in I by lia. rewrite <- skipn_skipn in I.
  rewrite <- (firstn_skipn (b - a) (skipn a l)). apply in_or_app. right. exact I.
Qed.
Lemma kept_le : forall gp fp gp' fp' m m', (gp <= gp')%nat -> (fp <= fp')%nat -> kept gp' fp' m m' -> kept gp fp m m'.
Proof.
  intros gp fp gp' fp' m m' H1 H2 (A & B & C). split; [exact A|]. split; intros.
  - apply B. intros I. apply H. eapply skipn_incl; eassumption.
  - apply C. lia.
Qed.
Lemma nth_in_skip : forall {A} g (l : list A) r, nth_error l g = Some r -> In r (skipn g l).
Proof.
  intros A. induction g as [|g IH]; intros l r H; destruct l as [|x l]; try discriminate; cbn [skipn nth_error] in *.
  - injection H as ->. left. reflexivity. - apply IH, H.
Qed.
Lemma nth_skip : forall i g r, nth_error int_regs i = Some r -> (i < g)%nat -> ~ In r (skipn g int_regs).
Proof.
  intros i g r H L. do 6 (destruct i as [|i]; [cbn [nth_error int_regs] in H; injection H as <-;
    do 7 (destruct g as [|g]; [try lia; cbn [skipn int_regs In]; intuition discriminate|]); cbn; tauto|]).
  cbn in H. destruct i; discriminate.
Qed.
Lemma nth_first : forall i g r, nth_error int_regs i = Some r -> (g <= i)%nat -> ~ In r (firstn g int_regs).
Proof.
  intros i g r H L. do 6 (destruct i as [|i]; [cbn [nth_error int_regs] in H; injection H as <-;
    do 7 (destruct g as [|g]; [try lia; cbn [firstn int_regs In]; intuition discriminate|]); lia|]).
  cbn in H. destruct i; discriminate.
Qed.
Lemma carries_kept : forall l m m' gp fp g' f' val, kept g' f' m m' -> (gp + gpar l <= g')%nat -> (fp + fpar l <= f')%nat ->
  carries m l gp fp val -> carries m' l gp fp val.
Proof.
  induction l as [|[[o n] f] r IH]; intros m m' gp fp g' f' val K G F C; [exact Logic.I|].
  unfold gpar, fpar in *. destruct f; cbn [filter snd negb length carries] in *; destruct C as [C1 C2].
  - split; [|apply (IH m m' _ _ g' f' val K); [lia|lia|exact C2]].
    destruct K as (_ & _ & K). rewrite K by lia. exact C1.
  - split; [|apply (IH m m' _ _ g' f' val K); [lia|lia|exact C2]].
    destruct C1 as (g & E & C1). exists g. split; [exact E|].
    destruct K as (_ & K & _). rewrite K; [exact C1|]. apply (nth_skip gp); [exact E|lia].
Qed.
Lemma carries_val : forall l m gp fp v w, (forall x, v x = w x) -> carries m l gp fp v -> carries m l gp fp w.
Proof.
  induction l as [|[[o n] f] r IH]; intros m gp fp v w E C; [exact Logic.I|].
  destruct f; cbn [carries] in *; destruct C as [C1 C2]; (split; [|eapply IH; eassumption]).
  - intros k H. rewrite <- E. auto.
  - destruct C1 as (g & Eg & C1). exists g. split; [exact Eg|]. intros k H. rewrite <- E. auto.
Qed.

Lemma parts_count : forall t, argument t -> in_memory (code_cls t) = false -> gpar (parts t) = ni t /\ fpar (parts t) = ns t.
Proof.
  intros t (N & Sz & Ar) IM. unfold ni, ns, gpar, fpar. destruct t as [u n| | | |n|n a ms|n bt]; cbn [parts].
  - rewrite (cls_gp _ _ N). split; reflexivity.
  - split; reflexivity. - split; reflexivity. - discriminate. - destruct N.
  - cbn [asize] in Sz.
    assert (n <= 16). { unfold code_cls in IM. cbn [asize] in IM. destruct (Z.ltb_spec 16 n); [discriminate|lia]. }
    rewrite cls_rec by lia. destruct (8 <? n), (fpe (ARec n a ms) 0); try destruct (fpe (ARec n a ms) 1); split; reflexivity.
  - destruct Ar.
Qed.

(** ** Loads *)
Section Run.
Variable sym : nat -> Z.
Lemma argreg_inv : forall gp r, argreg gp = Ok r -> nth_error int_regs gp = Some r.
Proof.
  unfold argreg, int_regs. intros gp r H. destruct (nth_error [DI; SI; DX; CX; R8; R9] gp); [congruence|discriminate].
Qed.
Lemma reg_bytes : forall s r v m k, s = S4 \/ s = S8 -> 0 <= k < Z.of_nat (nbytes s) ->
  byte_eq ((rg (putr s r v m) r mod 2 ^ 64) / 2 ^ (8 * k)) (v / 2 ^ (8 * k)).
Proof.
  intros s r v m k Hs H. unfold byte_eq.
  destruct Hs as [->| ->]; cbn [putr setr rg nbits nbytes] in *; rewrite reg_eqb_refl; rewrite !byte_of_mod by lia; reflexivity.
Qed.
Lemma load_int_ok : forall u n b o r i, load_extend_int u n b o r = Ok i ->
  forall m a, addr_of sym (im m) b o a n ->
  exists m', xexec sym i m = Some m' /\ mm (im m') = mm (im m) /\ only_reg r (im m) (im m') /\ xr m' = xr m /\
    forall k, 0 <= k < n -> byte_eq ((rg (im m') r mod 2 ^ 64) / 2 ^ (8 * k)) (mm (im m) (a + k)).
Proof.
  intros u n b o r i E m a AD. unfold load_extend_int in E.
  assert (EA : 1 <= n -> ea sym b o (im m) = a).
  { intros Hn. replace o with (0 + o) by lia. rewrite (ea_at sym _ _ _ _ _ 0 AD) by lia. lia. }
  assert (SG : forall s v k, 0 <= k < Z.of_nat (nbytes s) -> byte_eq ((if negb u then sgn (nbits s) v else v) / 2 ^ (8 * k)) (v / 2 ^ (8 * k))).
  { intros s v k H. destruct (negb u); [|reflexivity]. unfold byte_eq.
    rewrite <- (byte_of_mod (sgn (nbits s) v) k (nbits s)), <- (byte_of_mod v k (nbits s)) by (destruct s; cbn [nbits nbytes] in *; lia).
    f_equal. f_equal. unfold sgn. destruct (v <? 2 ^ (nbits s - 1)); [reflexivity|].
    rewrite <- (Z.mod_add (v - 2 ^ nbits s) 1 (2 ^ nbits s)) by (destruct s; cbn [nbits]; lia). f_equal. lia. }
  destruct (Z.eqb_spec n 1); [|destruct (Z.eqb_spec n 2); [|destruct (Z.eqb_spec n 4); [|destruct (Z.eqb_spec n 8); [|discriminate]]]];
    injection E as <-; subst n; specialize (EA ltac:(lia)).
  - eexists. split; [cbn [xexec exec1 size_eqb nbits andb rd Z.ltb Z.compare Pos.compare Pos.compare_cont]; reflexivity|].
    cbn [im xr]. split; [apply putr_mem|]. split; [apply putr_only|]. split; [reflexivity|]. intros k H.
    eapply eq_trans; [apply reg_bytes; [auto|cbn [nbytes]; lia]|].
    eapply eq_trans; [apply (SG S1); cbn [nbytes]; lia|]. rewrite EA. apply loadn_byte. cbn [nbytes]; lia.
  - eexists. split; [cbn [xexec exec1 size_eqb nbits andb rd Z.ltb Z.compare Pos.compare Pos.compare_cont]; reflexivity|].
    cbn [im xr]. split; [apply putr_mem|]. split; [apply putr_only|]. split; [reflexivity|]. intros k H.
    eapply eq_trans; [apply reg_bytes; [auto|cbn [nbytes]; lia]|].
    eapply eq_trans; [apply (SG S2); cbn [nbytes]; lia|]. rewrite EA. apply loadn_byte. cbn [nbytes]; lia.
  - eexists. split; [cbn [xexec exec1 is_mem andb osize rd wr]; reflexivity|].
    cbn [im xr]. split; [apply putr_mem|]. split; [apply putr_only|]. split; [reflexivity|]. intros k H.
    eapply eq_trans; [apply reg_bytes; [auto|cbn [nbytes]; lia]|]. rewrite EA. apply loadn_byte. cbn [nbytes]; lia.
  - eexists. split; [cbn [xexec]; rewrite mov_load; reflexivity|].
    cbn [im xr]. split; [apply putr_mem|]. split; [apply putr_only|]. split; [reflexivity|]. intros k H.
    eapply eq_trans; [apply reg_bytes; [auto|cbn [nbytes]; lia]|]. rewrite EA. apply loadn_byte. cbn [nbytes]; lia.
Qed.
(** Eight bytes are read even if the object has fewer left. *)
Lemma chunk_ok : forall f b o gp fp i q, place_chunk f b o gp fp = Ok (i, q) ->
  forall m a, ea sym b o (im m) = a ->
  exists m', xexec sym i m = Some m' /\ kept gp fp m m' /\
    forall n val off, n <= 8 -> (forall k, 0 <= k < n -> mm (im m) (a + k) = val (off + k)) -> carries m' [(off, n, f)] gp fp val.
Proof.
  intros f b o gp fp i q E m a EA. unfold place_chunk in E. destruct f.
  - injection E as <- <-. eexists. split; [reflexivity|]. split.
    + unfold kept, ldx, setx. cbn [im xr]. repeat split. intros x H. destruct (Nat.eqb_spec x fp); [lia|reflexivity].
    + intros n val off Hn Hv. cbn [carries]. split; [|exact Logic.I]. intros k Hk. unfold ldx, setx. cbn [xr]. rewrite Nat.eqb_refl.
      rewrite EA. rewrite <- Hv by lia. apply loadn_byte. cbn [nbytes]; lia.
  - destruct (argreg gp) as [r| |] eqn:EG; cbn [bind] in E; try discriminate. injection E as <- <-.
    apply argreg_inv in EG. eexists. split; [cbn [xexec]; rewrite mov_load; reflexivity|]. split.
    + unfold kept. cbn [im xr]. split; [apply putr_mem|]. split; [|reflexivity].
      intros x H. apply putr_only. intros ->. apply H. apply nth_in_skip, EG.
    + intros n val off Hn Hv. cbn [carries]. split; [|exact Logic.I]. exists r. split; [exact EG|]. intros k Hk. cbn [im].
      eapply eq_trans; [apply reg_bytes; [auto|cbn [nbytes]; lia]|]. rewrite EA, <- Hv by lia. apply loadn_byte. cbn [nbytes]; lia.
Qed.

Definition safe_base (b : base) : Prop := match b with BReg r => ~ In r int_regs | BSym _ => True end.
Lemma base_kept : forall b o gp fp m m', safe_base b -> kept gp fp m m' -> ea sym b o (im m') = ea sym b o (im m).
Proof.
  intros b o gp fp m m' HS (_ & K & _). unfold ea. destruct b as [r|s]; [|reflexivity]. rewrite K; [reflexivity|].
  intros H. apply HS. apply (skipn_incl int_regs 0 gp); [lia|exact H].
Qed.
Lemma carries_one : forall m o n f r gp fp val,
  carries m [(o, n, f)] gp fp val -> carries m r (if f then gp else S gp) (if f then S fp else fp) val ->
  carries m ((o, n, f) :: r) gp fp val.
Proof. intros m o n f r gp fp val H1 H2. destruct f; cbn [carries] in *; tauto. Qed.

Lemma arg_ok : forall t b o gp fp c q, argument t -> (gp <= 6)%nat -> (fp <= 8)%nat -> stacked t gp fp = false -> safe_base b ->
  place_reg_arg t b o gp fp = Ok (c, q) ->
  forall m a, addr_of sym (im m) b o a (asize t) ->
  exists m', xrun sym c m = Some m' /\ kept gp fp m m' /\ carries m' (parts t) gp fp (fun k => mm (im m) (a + k)).
Proof.
  intros t b o gp fp c q (N & Sz & Ar) Hg Hf Hs SB E m a AD.
  assert (IM : in_memory (code_cls t) = false).
  { unfold stacked in Hs. apply orb_false_elim in Hs. destruct Hs as [Hs _]. apply orb_false_elim in Hs. tauto. }
  assert (EA : ea sym b o (im m) = a).
  { replace o with (0 + o) by lia. rewrite (ea_at sym _ _ _ _ _ 0 AD) by lia. lia. }
  destruct t as [u n| | | |n|n al ms|n bt]; cbn [place_reg_arg] in E.
  - destruct (argreg gp) as [r| |] eqn:EG; cbn [bind asize] in E; try discriminate. apply argreg_inv in EG.
    destruct (load_extend_int u n b o r) as [i| |] eqn:EL; cbn [bind] in E; try discriminate. injection E as <- <-.
    destruct (load_int_ok _ _ _ _ _ _ EL m a AD) as (m' & R1 & R2 & R3 & R4 & R5).
    exists m'. cbn [xrun]. rewrite R1. split; [reflexivity|]. split.
    + split; [exact R2|]. split; [|intros; rewrite R4; reflexivity].
      intros x H. apply R3. intros ->. apply H. apply nth_in_skip, EG.
    + cbn [parts carries asize]. split; [|exact Logic.I]. exists r. split; [exact EG|]. exact R5.
  - injection E as <- <-. eexists. split; [reflexivity|]. split.
    + unfold kept, ldx, setx. cbn [im xr]. repeat split. intros x H. destruct (Nat.eqb_spec x fp); [lia|reflexivity].
    + cbn [parts carries]. split; [|exact Logic.I]. intros k Hk. unfold ldx, setx. cbn [xr]. rewrite Nat.eqb_refl.
      rewrite EA. apply loadn_byte. lia.
  - injection E as <- <-. eexists. split; [reflexivity|]. split.
    + unfold kept, ldx, setx. cbn [im xr]. repeat split. intros x H. destruct (Nat.eqb_spec x fp); [lia|reflexivity].
    + cbn [parts carries]. split; [|exact Logic.I]. intros k Hk. unfold ldx, setx. cbn [xr]. rewrite Nat.eqb_refl.
      rewrite EA. apply loadn_byte. lia.
  - discriminate IM.
  - destruct N.
  - cbn [asize] in Sz. rewrite has1 in E by assumption. cbn [bind] in E. cbn [parts].
    destruct (place_chunk (fpe (ARec n al ms) 0) b o gp fp) as [[i1 q1]| |] eqn:E1; cbn [bind] in E; try discriminate.
    destruct (chunk_ok _ _ _ _ _ _ _ E1 m a EA) as (m1 & R1 & K1 & C1).
    destruct (Z.ltb_spec 8 n).
    + rewrite has2 in E by assumption. cbn [bind fst snd] in E.
      destruct (place_chunk (fpe (ARec n al ms) 1) b (8 + o) (fst q1) (snd q1)) as [[i2 q2]| |] eqn:E2; cbn [bind fst snd] in E; try discriminate.
      injection E as <- <-.
      assert (EA2 : ea sym b (8 + o) (im m1) = a + 8).
      { rewrite (base_kept _ _ _ _ _ _ SB K1). apply (ea_at sym _ _ _ _ _ 8 AD). cbn [asize]. lia. }
      destruct (chunk_ok _ _ _ _ _ _ _ E2 m1 (a + 8) EA2) as (m2 & R2 & K2 & C2).
      exists m2. cbn [xrun]. rewrite R1, R2. split; [reflexivity|].
      assert (Q : fst q1 = (if fpe (ARec n al ms) 0 then gp else S gp) /\ snd q1 = (if fpe (ARec n al ms) 0 then S fp else fp)).
      { unfold place_chunk in E1. destruct (fpe (ARec n al ms) 0); [injection E1 as <- <-; auto|].
        destruct (argreg gp); cbn [bind] in E1; try discriminate. injection E1 as <- <-. auto. }
      destruct Q as [Q1 Q2].
      split.
      * eapply kept_trans; [exact K1|]. eapply kept_le; [| |exact K2]; rewrite ?Q1, ?Q2; destruct (fpe (ARec n al ms) 0); lia.
      * apply carries_one.
        -- eapply carries_kept; [exact K2| | |].
           3:{ apply C1; [lia|]. intros k Hk. reflexivity. }
           all: unfold gpar, fpar; rewrite ?Q1, ?Q2; destruct (fpe (ARec n al ms) 0); cbn [filter snd negb length]; lia.
        -- rewrite <- Q1, <- Q2. apply C2; [cbn [asize] in *|].
           { unfold code_cls in IM. cbn [asize] in IM. destruct (Z.ltb_spec 16 n); [discriminate|lia]. }
           intros k Hk. destruct K1 as (K1 & _). rewrite K1. f_equal. lia.
    + injection E as <- <-. exists m1. cbn [xrun fst]. rewrite R1. split; [reflexivity|]. split; [exact K1|].
      apply C1; [lia|]. intros k Hk. reflexivity.
  - destruct Ar.
Qed.

(** ** The caller *)
Fixpoint all_carried (m : xmach) (ls : list loc) (p : pst) (f : Z -> Z) : Prop :=
  match ls with
  | [] => True
  | l :: r =>
      (stacked (l_ty l) (p_gp p) (p_fp p) = false -> carries m (parts (l_ty l)) (p_gp p) (p_fp p) (fun k => f (l_addr l + k))) /\
      all_carried m r (pstep (l_ty l) p) f
  end.
Lemma located_kept : forall l gp fp m m', loc_ok l -> kept gp fp m m' -> located sym (im m) l -> located sym (im m') l.
Proof.
  intros l gp fp m m' (SB & _) (_ & K & _) H. unfold located, addr_of in *. destruct (l_base l) as [r|s]; [|exact H].
  rewrite K; [exact H|]. intros I. apply SB. apply (skipn_incl int_regs 0 gp); [lia|exact I].
Qed.
Lemma step_mono : forall t p, (p_gp p <= p_gp (pstep t p))%nat /\ (p_fp p <= p_fp (pstep t p))%nat.
Proof. intros t p. unfold pstep. destruct (stacked _ _ _); cbn [p_gp p_fp]; lia. Qed.

Lemma caller_ok : forall ls p codes, Forall argument (map l_ty ls) -> Forall loc_ok ls -> p_ok p ->
  gen_reg_args (combine (combine (map l_ty ls) (plan (map l_ty ls) p)) (map l_place ls)) (p_gp p) (p_fp p) = Ok codes ->
  forall m, Forall (located sym (im m)) ls ->
  exists m', xrun sym (concat codes) m = Some m' /\ kept (p_gp p) (p_fp p) m m' /\ all_carried m' ls p (mm (im m)).
Proof.
  induction ls as [|l r IH]; intros p codes F L K E m H.
  { injection E as <-. exists m. split; [reflexivity|]. split; [apply kept_refl|exact Logic.I]. }
  cbn [map plan combine] in E. cbn [map] in F. inversion F as [|? ? At Fr]; subst. inversion L as [|? ? L1 Lr]; subst.
  inversion H as [|? ? H1 Hr]; subst. unfold pdest in E.
  pose proof (step_ok _ p At K) as K'.
  destruct (stacked (l_ty l) (p_gp p) (p_fp p)) eqn:ES; cbn [gen_reg_args l_place] in E.
  - assert (PG : p_gp (pstep (l_ty l) p) = p_gp p /\ p_fp (pstep (l_ty l) p) = p_fp p) by (unfold pstep; rewrite ES; auto).
    destruct PG as [P1 P2]. 
    destruct (gen_reg_args _ (p_gp p) (p_fp p)) as [cs| |] eqn:E1; cbn [bind] in E; try discriminate. injection E as <-.
    rewrite <- P1, <- P2 in E1. destruct (IH _ _ Fr Lr K' E1 m Hr) as (m' & R1 & R2 & R3).
    exists m'. cbn [concat app all_carried]. rewrite P1, P2 in R2. split; [exact R1|]. split; [exact R2|]. split; [|exact R3].
    rewrite ES. discriminate.
  - destruct (place_reg_arg (l_ty l) (l_base l) (l_ofs l) (p_gp p) (p_fp p)) as [[c q]| |] eqn:E1; cbn [bind fst snd] in E; try discriminate.
    destruct (place_ok (l_ty l) (l_base l) (l_ofs l) (p_gp p) (p_fp p) At) as (c' & E1' & _); try apply K; [exact ES|].
    rewrite E1 in E1'. injection E1' as <- ->. cbn [fst snd] in E.
    assert (PG : p_gp (pstep (l_ty l) p) = (p_gp p + ni (l_ty l))%nat /\ p_fp (pstep (l_ty l) p) = (p_fp p + ns (l_ty l))%nat)
      by (unfold pstep; rewrite ES; auto).
    destruct PG as [P1 P2].
    destruct (gen_reg_args _ (p_gp p + ni (l_ty l)) (p_fp p + ns (l_ty l))) as [cs| |] eqn:E2; cbn [bind] in E; try discriminate.
    injection E as <-. rewrite <- P1, <- P2 in E2.
    destruct (arg_ok (l_ty l) _ _ _ _ _ _ At ltac:(apply K) ltac:(apply K) ES (proj1 L1) E1 m (l_addr l) H1) as (m1 & R1 & K1 & C1).
    destruct (IH _ _ Fr Lr K' E2 m1) as (m2 & R2 & K2 & C2).
    { apply Forall_forall. intros x Ix. rewrite Forall_forall in Hr, Lr. eapply located_kept; [auto|exact K1|auto]. }
    exists m2. cbn [concat]. rewrite (xrun_app _ _ _ _ _ R1). split; [exact R2|]. split.
    + eapply kept_trans; [exact K1|]. eapply kept_le; [| |exact K2]; apply step_mono.
    + cbn [all_carried]. split.
      * intros _. eapply carries_kept; [exact K2| | |exact C1].
        all: unfold stacked in ES; apply orb_false_elim in ES; destruct ES as [ES _]; apply orb_false_elim in ES; destruct ES as [ES _];
             destruct (parts_count _ At ES) as [Q1 Q2]; rewrite ?P1, ?P2, ?Q1, ?Q2; lia.
      * destruct K1 as (K1 & _). rewrite <- K1. exact C2.
Qed.

(** ** The callee *)
(** Only the first [g] registers change. *)
Definition saved (g : nat) (m m' : xmach) : Prop :=
  (forall r, ~ In r (firstn g int_regs) -> rg (im m') r = rg (im m) r) /\ xr m' = xr m.
Lemma firstn_incl : forall {A} (l : list A) a b x, (a <= b)%nat -> In x (firstn a l) -> In x (firstn b l).
Proof.
  intros A l a b x H I. rewrite <- (firstn_skipn a (firstn b l)). apply in_or_app. left.
  rewrite firstn_firstn. rewrite Nat.min_l by lia. exact I.
Qed.
Lemma saved_trans : forall g a b c, saved g a b -> saved g b c -> saved g a c.
Proof. intros g a b c (A1 & A2) (B1 & B2). split; [|congruence]. intros. rewrite B1, A1; auto. Qed.
Lemma saved_le : forall g g' m m', (g <= g')%nat -> saved g m m' -> saved g' m m'.
Proof.
  intros g g' m m' H (A & B). split; [|exact B]. intros r I. apply A. intros J. apply I. eapply firstn_incl; eassumption.
Qed.
Lemma carries_saved : forall l m m' g gp fp val, saved g m m' -> (g <= gp)%nat ->
  carries m l gp fp val -> carries m' l gp fp val.
Proof.
  induction l as [|[[o n] f] r IH]; intros m m' g gp fp val K G C; [exact Logic.I|].
  destruct f; cbn [carries] in *; destruct C as [C1 C2].
  - split; [|apply (IH m m' g _ _ val K); [lia|exact C2]]. destruct K as (_ & K). rewrite K. exact C1.
  - split; [|apply (IH m m' g _ _ val K); [lia|exact C2]].
    destruct C1 as (x & E & C1). exists x. split; [exact E|].
    destruct K as (K & _). rewrite K; [exact C1|]. apply (nth_first gp); [exact E|lia].
Qed.
Lemma addr_saved : forall b o a n g m m', safe_base b -> saved g m m' -> addr_of sym (im m) b o a n -> addr_of sym (im m') b o a n.
Proof.
  intros b o a n g m m' HS (K & _) H. unfold addr_of in *. destruct b as [r|s]; [|exact H]. rewrite K; [exact H|].
  intros I. apply HS. rewrite <- (firstn_skipn g int_regs). apply in_or_app. left. exact I.
Qed.

Lemma save_chunk_ok : forall f sz b o gp fp a, 1 <= sz <= 8 -> (f = true -> sz = 4 \/ sz = 8) ->
  (f = false -> (gp < 6)%nat) -> safe_base b -> INT_MIN <= o -> o + sz <= INT_MAX ->
  exists c, save_chunk f sz b o gp fp = Ok (c, if f then (gp, S fp) else (S gp, fp)) /\
  forall m val off, addr_of sym (im m) b o a sz -> carries m [(off, sz, f)] gp fp val ->
  exists m', xrun sym c m = Some m' /\ replaced (mm (im m)) (mm (im m')) a sz (fun k => val (off + k)) /\
    saved (if f then gp else S gp) m m'.
Proof.
  intros f sz b o gp fp a Hs Hf Hg SB O1 O2. unfold save_chunk. destruct f.
  - specialize (Hf eq_refl). unfold store_fp.
    assert (X : exists i, (if sz =? 4 then Ok [MovssSt fp b o] else if sz =? 8 then Ok [MovsdSt fp b o] else Abort) = Ok [i] /\
      forall m, xexec sym i m = Some (stx sym (Z.to_nat sz) fp b o m)).
    { destruct Hf as [->| ->]; eexists; split; reflexivity. }
    destruct X as (i & -> & X). cbn [bind]. eexists. split; [reflexivity|].
    intros m val off AD C. eexists. split; [cbn [xrun]; rewrite X; reflexivity|].
    assert (EA : ea sym b o (im m) = a).
    { replace o with (0 + o) by lia. rewrite (ea_at sym _ _ _ _ _ 0 AD) by lia. lia. }
    unfold stx, setmem. cbn [im setm mm xr]. rewrite EA. split.
    + split.
      * intros k Hk. unfold byte_eq. rewrite storen_byte by lia. rewrite Z.mod_mod by lia.
        cbn [carries] in C. destruct C as [C _]. apply C, Hk.
      * intros x Hx. apply storen_other. lia.
    + split; reflexivity.
  - specialize (Hg eq_refl). unfold store_gp. destruct (argreg_ok gp Hg) as (r & E & _). rewrite E. cbn [bind].
    apply argreg_inv in E.
    assert (NB : b <> BReg r). { intros ->. apply SB. apply nth_error_In with gp. exact E. }
    destruct (store_ok sym r b o sz a NB Hs O1 O2) as (c & Ec & K). rewrite Ec. cbn [bind].
    eexists. split; [reflexivity|]. intros m val off AD C. destruct (K m AD) as (m' & R1 & R2 & R3 & R4).
    exists m'. split; [exact R1|]. split.
    + destruct R2 as [R2 R2']. split; [|exact R2']. intros k Hk.
      eapply eq_trans; [apply R2, Hk|]. cbn [carries] in C. destruct C as [(g & Eg & C) _].
      rewrite E in Eg. injection Eg as <-. apply C, Hk.
    + split; [|exact R4]. intros x I. apply R3. intros ->. apply I. 
      clear - E Hg. revert E. do 6 (destruct gp as [|gp]; [cbn [nth_error int_regs]; intros [= <-]; cbn; tauto|]). lia.
Qed.
End Run.
