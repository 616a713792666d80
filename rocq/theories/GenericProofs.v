(** Proofs about generic selections. *)
From Coq Require Import ZArith List Bool Lia.
From Verif Require Import Base CompatSpec CompatModel CompatRep CompatProofs GenericSpec GenericModel.
Import ListNotations.
Local Open Scope Z_scope.

Lemma chain_kind : forall h p n q, chain h p n q -> variants h -> forall r o, h p = Some r -> h q = Some o ->
  kind r = kind o /\ base r = base o.
Proof.
  induction 1 as [p r N E O|p r n q N E O C IH]; intros V r1 o1 E1 E2.
  - assert (r1 = o1) by congruence. subst. split; reflexivity.
  - assert (r1 = r) by congruence. subst r1. destruct (V _ _ E O) as (o & EO & K & B).
    destruct (IH V _ _ EO E2) as [K2 B2]. split; congruence.
Qed.

Lemma control_ok : forall vd bl h p q t new, clean h -> variants h -> repq vd bl h p q t ->
  (converted t <> t -> q = noq) -> h new = None -> new <> 0 ->
  exists h' p', control h p new = Ok (h', p') /\ extends h h' /\ repq vd bl h' p' noq (converted t).
Proof.
  intros vd bl h p q t new CL V R Q N NZ. destruct (repq_inv _ _ _ _ _ _ R) as (r & E & -> & RP).
  destruct (base_shape _ _ _ _ _ RP) as (n & b & o & C & RB & EB & OB & SH).
  destruct (chain_kind _ _ _ _ C V _ _ E EB) as [K B].
  unfold control, deref. rewrite E. cbn [bind]. rewrite K, B.
  assert (DEF : kind_eqb (kind o) TY_FUNC = false -> is_array (kind o) = false -> converted t = t ->
    exists h' p', (if kind_eqb (kind o) TY_FUNC then Ok (pointer_to h p new, new) else
       if is_array (kind o) then Ok (pointer_to h (base o) new, new) else unqual h p new) = Ok (h', p') /\
       extends h h' /\ repq vd bl h' p' noq (converted t)).
  { intros -> -> ->. apply unqual_ok; assumption. }
  destruct t; cbn [erase1 shape] in SH; cbn [converted] in *;
    try (apply DEF; [| |reflexivity]; repeat match goal with A : _ /\ _ |- _ => destruct A | A : _ \/ _ |- _ => destruct A end;
         match goal with A : kind o = _ |- _ => rewrite A end; try (destruct k); reflexivity).
  - destruct SH as (K2 & _ & RQ). rewrite K2. cbn.
    destruct (pointer_rep vd bl h (base o) q t new RQ N NZ) as [X Y]. eauto.
  - destruct SH as (K2 & RQ). rewrite K2. cbn.
    destruct (pointer_rep vd bl h (base o) q t new RQ N NZ) as [X Y]. eauto.
  - destruct SH as (K2 & _). rewrite K2. cbn. rewrite (Q ltac:(discriminate)) in R.
    destruct (pointer_rep vd bl h p noq _ new R N NZ) as [X Y]. eauto.
Qed.

Lemma not_func : forall vd bl h p t r, variants h -> rep vd bl h p t -> h p = Some r ->
  (~ exists a v l, t = CFun a v l) -> kind_eqb (kind r) TY_FUNC = false.
Proof.
  intros vd bl h p t r V RP E NF. destruct (base_shape _ _ _ _ _ RP) as (n & b & o & C & RB & EB & OB & SH).
  destruct (chain_kind _ _ _ _ C V _ _ E EB) as [-> _].
  destruct t; cbn [erase1 shape] in SH; repeat match goal with A : _ /\ _ |- _ => destruct A | A : _ \/ _ |- _ => destruct A end;
    try (match goal with A : kind o = _ |- _ => rewrite A end; try (destruct k); reflexivity).
  exfalso. apply NF. eauto.
Qed.

Lemma is_func : forall vd bl h p a v l r, variants h -> rep vd bl h p (CFun a v l) -> h p = Some r -> kind r = TY_FUNC.
Proof.
  intros vd bl h p a v l r V RP E. destruct (base_shape _ _ _ _ _ RP) as (n & b & o & C & RB & EB & OB & SH).
  destruct (chain_kind _ _ _ _ C V _ _ E EB) as [-> _]. exact (proj1 SH).
Qed.

Lemma choose_ok : forall vd bl h t1 c, variants h -> repq vd bl h t1 noq c -> plain c ->
  forall l b, Forall2 (stands vd bl h) l b -> admissible c b ->
  exists n, forall f, (n <= f)%nat -> forall ret, exists r, choose f h t1 ret l = Ok r /\
    (forall a e, In (a, e) b -> fits c a -> r = Some e) /\
    ((forall a e, In (a, e) b -> ~ fits c a) ->
       (ret <> None -> r = ret) /\
       (ret = None -> (forall e, In (ForDefault, e) b -> r = Some e) /\ ((forall e, ~ In (ForDefault, e) b) -> r = None))).
Proof.
  intros vd bl h t1 c V RC PC. induction 1 as [|x [a e] l b S F IH]; intros A.
  - exists 0%nat. intros f _ ret. exists ret. split; [reflexivity|]. split; [intros ? ? []|]. intros _.
    split; [reflexivity|]. intros ->. split; [intros ? []|reflexivity].
  - inversion A as [|y m AH AT]; subst. rewrite Forall_forall in AH. destruct (IH AT) as (n & K). clear IH.
    destruct x as [e0|p e0]; destruct a as [q t|]; cbn [stands] in S; try contradiction.
    + subst e0. exists n. intros f L ret. cbn [choose].
      destruct (K f L (match ret with None => Some e | Some _ => ret end)) as (r & E & K1 & K2). exists r. split; [exact E|]. split.
      * intros a e' [H|H] FT; [injection H as <- <-; destruct FT|]. eauto.
      * intros NO. destruct (K2 (fun a e' H => NO a e' (or_intror H))) as [K3 K4]. split.
        -- intros NR. destruct ret; [|contradiction]. apply K3. discriminate.
        -- intros ->. rewrite K3 by discriminate. split.
           ++ intros e' [H|H]; [congruence|]. destruct (proj2 (AH _ H)). split; reflexivity.
           ++ intros ND. destruct (ND e). left. reflexivity.
    + destruct S as (-> & RQ & PT & NF). destruct (compatible2_ok _ _ _ _ _ _ _ _ _ RC RQ PC PT) as (bb & (n1 & C) & CB).
      exists (n + n1)%nat. intros f L ret. cbn [choose].
      destruct (repq_inv _ _ _ _ _ _ RQ) as (r0 & E0 & Q0 & RP). unfold deref at 1. rewrite E0. cbn [bind].
      rewrite (not_func _ _ _ _ _ _ V RP E0 NF). rewrite C by lia. cbn [bind].
      destruct (K f ltac:(lia) (if bb then Some e else ret)) as (r & E & K1 & K2). exists r. split; [exact E|]. split.
      * intros a e' [H|H] FT; [|eauto]. injection H as <- <-.
        assert (bb = true) by (apply CB; destruct FT as [-> FT]; split; [reflexivity|exact FT]). subst bb.
        refine (proj1 (K2 _) _); [|discriminate]. intros a e' H FA. exact (proj1 (AH _ H) (conj FT FA)).
      * intros NO. destruct (K2 (fun a e' H => NO a e' (or_intror H))) as [K3 K4].
        assert (bb = false).
        { destruct bb; [|reflexivity]. exfalso. destruct (proj1 CB eq_refl) as [<- CC].
          exact (NO _ _ (or_introl eq_refl) (conj eq_refl CC)). }
        subst bb. split; [exact K3|]. intros X. destruct (K4 X) as [K5 K6]. split.
        -- intros e' [H|H]; [discriminate H|]. eauto.
        -- intros ND. apply K6. intros e' H. exact (ND e' (or_intror H)).
Qed.

Lemma variants_ext : forall h new r, variants h -> h new = None ->
  (origin r <> 0 -> exists o, h (origin r) = Some o /\ kind r = kind o /\ base r = base o) -> variants (alloc h new r).
Proof.
  intros h new r V N O p r1 E NZ. unfold alloc in *.
  assert (X : exists o, h (origin r1) = Some o /\ kind r1 = kind o /\ base r1 = base o).
  { destruct (Z.eqb_spec p new); [injection E as <-; exact (O NZ)|exact (V _ _ E NZ)]. }
  destruct X as (o & EO & K). exists o. split; [|exact K]. destruct (Z.eqb_spec (origin r1) new); [congruence|exact EO].
Qed.
Lemma control_variants : forall h p new h' p', variants h -> h new = None -> control h p new = Ok (h', p') -> variants h'.
Proof.
  unfold control, unqual, deref. intros h p new h' p' V N E. destruct (h p) as [r|] eqn:EP; cbn [bind] in E; [|discriminate].
  destruct (kind_eqb (kind r) TY_FUNC).
  { injection E as <- <-. apply variants_ext; [exact V|exact N|]. intros X. contradiction X; reflexivity. }
  destruct (is_array (kind r)).
  { injection E as <- <-. apply variants_ext; [exact V|exact N|]. intros X. contradiction X; reflexivity. }
  match type of E with context [h ?q] => destruct (h q) as [o|] eqn:EO end; cbn [bind] in E; [|discriminate].
  destruct (q_atomic (quals_of o) || q_const (quals_of o) || q_volatile (quals_of o) || q_restrict (quals_of o)).
  - injection E as <- <-. apply variants_ext; [exact V|exact N|]. cbn [origin kind base]. intros X. exact (V _ _ EO X).
  - injection E as <- <-. exact V.
Qed.
Lemma stands_ext : forall vd bl h h' l b, extends h h' -> Forall2 (stands vd bl h) l b -> Forall2 (stands vd bl h') l b.
Proof.
  intros vd bl h h' l b X. induction 1 as [|x [a e] l b S F IH]; constructor; [|exact IH].
  destruct x, a; cbn [stands] in *; try exact S. destruct S as (? & R & S). split; [assumption|]. split; [|exact S].
  eapply repq_ext; eassumption.
Qed.
Lemma plain_converted : forall t, plain t -> plain (converted t).
Proof. destruct t; cbn [converted]; intros H; exact H. Qed.

Theorem selection_ok : forall vd bl h p q t new, clean h -> variants h -> repq vd bl h p q t -> plain t ->
  (converted t <> t -> q = noq) -> h new = None -> new <> 0 ->
  forall l b, Forall2 (stands vd bl h) l b -> admissible (converted t) b ->
  exists n, forall f, (n <= f)%nat ->
    (forall e, selects (converted t) b e -> generic_selection f h p new l = Ok e) /\
    ((forall e, ~ selects (converted t) b e) -> generic_selection f h p new l = Abort).
Proof.
  intros vd bl h p q t new CL V R PL Q N NZ l b F A.
  destruct (control_ok _ _ _ _ _ _ _ CL V R Q N NZ) as (h' & p' & EC & X & RC).
  destruct (choose_ok _ _ _ _ _ (control_variants _ _ _ _ _ V N EC) RC (plain_converted _ PL) _ _ (stands_ext _ _ _ _ _ _ X F) A) as (n & K).
  exists n. intros f L. destruct (K f L None) as (r & E & K1 & K2). unfold generic_selection. rewrite EC. cbn [bind fst snd].
  rewrite E. cbn [bind]. split.
  - intros e [(a & H & FT)|[NO H]]; [rewrite (K1 _ _ H FT); reflexivity|].
    destruct (K2 NO) as [_ K4]. rewrite (proj1 (K4 eq_refl) _ H). reflexivity.
  - intros NS. destruct (K2 (fun a e H FT => NS e (or_introl (ex_intro _ a (conj H FT))))) as [_ K4].
    rewrite (proj2 (K4 eq_refl)); [reflexivity|]. intros e H. apply (NS e). right. split; [|exact H].
    intros a e' H' FT. apply (NS e'). left. eauto.
Qed.

Theorem function_association : forall vd bl h p new l p1 e1 a v m, variants h -> h new = None ->
  In (For p1 e1) l -> rep vd bl h p1 (CFun a v m) -> forall f e, generic_selection f h p new l <> Ok e.
Proof.
  intros vd bl h p new l p1 e1 a v m V N IN RP f e E. unfold generic_selection in E.
  destruct (control h p new) as [[h' p']| |] eqn:EC; cbn [bind fst snd] in E; try discriminate.
  assert (X : h' p1 = h p1).
  { destruct (rep_some _ _ _ _ _ RP) as (_ & r & E1). assert (p1 <> new) by congruence.
    unfold control, unqual, deref in EC. destruct (h p) as [r0|]; cbn [bind] in EC; [|discriminate].
    assert (AL : forall r1, alloc h new r1 p1 = h p1) by (intros r1; unfold alloc; destruct (Z.eqb_spec p1 new); [contradiction|reflexivity]).
    destruct (kind_eqb (kind r0) TY_FUNC); [injection EC as <- <-; apply AL|].
    destruct (is_array (kind r0)); [injection EC as <- <-; apply AL|].
    match type of EC with context [h ?q] => destruct (h q) as [o|] end; cbn [bind] in EC; [|discriminate].
    destruct (q_atomic (quals_of o) || q_const (quals_of o) || q_volatile (quals_of o) || q_restrict (quals_of o));
      injection EC as <- <-; [apply AL|reflexivity]. }
  destruct (rep_some _ _ _ _ _ RP) as (_ & r & E1). pose proof (is_func _ _ _ _ _ _ _ _ V RP E1) as KF.
  assert (NOK : forall l ret x, In (For p1 e1) l -> choose f h' p' ret l <> Ok x).
  { clear - X E1 KF. induction l as [|y l IH]; intros ret x []; intros C.
    - subst y. cbn [choose] in C. unfold deref in C at 1. rewrite X, E1 in C. cbn [bind] in C. rewrite KF in C. discriminate C.
    - destruct y as [e0|p0 e0]; cbn [choose] in C; [exact (IH _ _ H C)|].
      destruct (deref h' p0) as [r0| |]; cbn [bind] in C; try discriminate.
      destruct (kind_eqb (kind r0) TY_FUNC); [discriminate|].
      destruct (is_compatible2 h' (is_compatible f h') p' p0) as [c| |]; cbn [bind] in C; try discriminate. exact (IH _ _ H C). }
  destruct (choose f h' p' None l) as [x| |] eqn:EX; cbn [bind] in E; try discriminate. exact (NOK _ _ _ IN EX).
Qed.

Theorem qualified_variants : forall h p new q h', variants h -> h new = None -> new_qualified_type h p new q = Ok h' -> variants h'.
Proof.
  unfold new_qualified_type, deref. intros h p new q h' V N E. destruct (h p) as [r0|]; cbn [bind] in E; [|discriminate].
  match type of E with context [h ?q] => destruct (h q) as [r|] eqn:EO end; cbn [bind] in E; [|discriminate].
  injection E as <-. apply variants_ext; [exact V|exact N|]. cbn [origin kind base]. intros _. exists r. split; [exact EO|split; reflexivity].
Qed.
