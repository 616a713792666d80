From Coq Require Import List Bool Arith Lia Permutation.
From Verif Require Import Base DeferSpec DeferModel DeferProofs.
Import ListNotations.
Scheme stmt_mut := Induction for stmt Sort Prop with items_mut := Induction for items Sort Prop.
Combined Scheme stmt_items_ind from stmt_mut, items_mut.

Section Dz.
Variable dz : bool.
Variable A : list (nat * stk).
Notation GT := (GT dz A). Notation chain_ok := (chain_ok dz A). Notation stack := (stack dz).

(** ** Code of the statements *)
Lemma T_regs : forall G es s, T A G (Some s) (regs dz es) (Some (push dz es s)).
Proof.
  intros G es. unfold regs, push. induction (filter (live dz) es) as [|e r IH]; intros s; cbn [map rev app]; [apply T_nil, le_refl|].
  apply T_reg. rewrite <- app_assoc. apply IH.
Qed.
Ltac nolab := intros l Ha Hb; repeat match goal with H : In _ [_] |- _ => destruct H as [<-|[]] | H : In _ [] |- _ => destruct H end;
  repeat match goal with H : In _ (labs _), K : forall l, In l (labs _) -> bnd _ _ _ _ l |- _ => apply K in H end; try (destruct l); cbn [bnd] in *; try discriminate; lia.
Lemma code_piece : forall u u' c c' a L v v' d d', code_ok u u' c c' a L -> v <= u -> u' <= v' -> d <= c -> c' <= d' -> code_ok v v' d d' a L.
Proof.
  intros u u' c c' a L v v' d d' (A1 & A2 & A3 & A4) V1 V2 D1 D2. split; [exact A1|]. split; [exact A2|]. split; [|lia].
  intros l Hl. apply A3 in Hl. destruct l; cbn [bnd] in *; lia.
Qed.
Lemma code_dis : forall u u' c c' a b La Lb, code_ok u u' c c' a La -> code_ok u u' c c' b Lb -> (forall l, In l (labs a) -> In l (labs b) -> False) ->
  code_ok u u' c c' (a ++ b) (La ++ Lb).
Proof.
  intros u u' c c' a b La Lb (A1 & A2 & A3 & A4) (B1 & B2 & B3 & B4) D. unfold code_ok. rewrite labs_app, map_app, A1, B1.
  split; [reflexivity|]. split; [apply nodup_app; assumption|]. split; [|exact A4].
  intros l H. apply in_app_or in H. destruct H; auto.
Qed.
Lemma code_lab : forall u u' c c' l s, bnd u u' c c' l -> c <= c' -> code_ok u u' c c' [Lab l] [(l, s)].
Proof.
  intros u u' c c' l s H C. split; [reflexivity|]. split; [cbn [labs flat_map app]; constructor; [intros []|constructor]|]. split; [|exact C].
  intros k [<-|[]]. exact H.
Qed.
Lemma code_none : forall u u' c c' a, labs a = [] -> c <= c' -> code_ok u u' c c' a [].
Proof. intros u u' c c' a E C. unfold code_ok. rewrite E. split; [reflexivity|]. split; [constructor|]. split; [intros l []|exact C]. Qed.
Lemma code_skip : forall u u' c c' a b L, labs a = [] -> code_ok u u' c c' b L -> code_ok u u' c c' (a ++ b) L.
Proof. intros u u' c c' a b L E H. change L with ([] ++ L). apply code_dis; [apply code_none; [exact E|apply H]|exact H|]. rewrite E. intros l []. Qed.
Lemma code_skip1 : forall u u' c c' i b L, is_lab i = false -> code_ok u u' c c' b L -> code_ok u u' c c' (i :: b) L.
Proof. intros u u' c c' i b L E H. apply (code_skip u u' c c' [i] b L); [destruct i; cbn in *; congruence|exact H]. Qed.
Lemma code_lab1 : forall u u' c c' l s b L, bnd u u' c c' l -> code_ok u u' c c' b L -> ~ In l (labs b) -> code_ok u u' c c' (Lab l :: b) ((l, s) :: L).
Proof.
  intros u u' c c' l s b L B H N. apply (code_dis u u' c c' [Lab l] b [(l, s)] L); [apply code_lab; [exact B|apply H]|exact H|].
  intros k [<-|[]]. exact N.
Qed.
Lemma in_labs_bnd : forall u u' c c' a L l, code_ok u u' c c' a L -> In l (labs a) -> bnd u u' c c' l.
Proof. intros u u' c c' a L l (_ & _ & H & _). apply H. Qed.

Lemma gt_if1 : forall ctx gts u u' NL cs w d t s q, u <= u' -> GT ctx gts u u' NL cs w t (Some (push dz d s)) q -> le q (Some (push dz d s)) ->
  GT ctx gts u u' NL cs w (gen_if dz d t None) (Some s) (Some (push dz d s)).
Proof.
  intros ctx gts u u' NL cs w d t s q U H Q env c HR. destruct (H env (S c) HR) as (a & c1 & La & E1 & K1 & N1 & C1 & T1).
  eexists _, c1, (La ++ [(LElse c, push dz d s)]). split; [unfold gen_if; rewrite E1; reflexivity|]. cbn [fst snd].
  pose proof (proj2 (proj2 (proj2 K1))) as CC.
  split; [|split; [|split]].
  - apply code_skip; [apply labs_regs|]. apply code_skip1; [reflexivity|].
    apply code_dis; [eapply code_piece; [exact K1|lia..]|apply code_lab; cbn [bnd]; lia|].
    intros l Ha [<-|[]]. apply (in_labs_bnd _ _ _ _ _ _ _ K1) in Ha. cbn [bnd] in Ha. lia.
  - intros x Hx. apply in_or_app. left. apply N1, Hx.
  - intros x Hx. destruct (C1 x Hx) as (z & E & Hz). exists z. split; [exact E|]. apply in_or_app. left. exact Hz.
  - intros G I CX GO. apply incl_app_inv in I. destruct I as [Ia Ib].
    assert (IE : In (LElse c, push dz d s) G) by (apply Ib; left; reflexivity).
    eapply T_app; [apply T_regs|]. apply T_br; [exact IE|]. eapply T_app; [apply T1; assumption|]. eapply T_lab; [exact IE|exact Q|apply T_nil, le_refl].
Qed.
Lemma gt_if2 : forall ctx gts u u1 u2 NL1 NL2 cs1 cs2 w d t e s q q', u <= u1 -> u1 <= u2 ->
  GT ctx gts u u1 NL1 cs1 w t (Some (push dz d s)) q -> le q (Some (push dz d s)) ->
  GT ctx gts u1 u2 NL2 cs2 w e (Some (push dz d s)) q' -> le q' (Some (push dz d s)) ->
  GT ctx gts u u2 (NL2 ++ NL1) (cs1 ++ cs2) w (gen_if dz d t (Some e)) (Some s) (Some (push dz d s)).
Proof.
  intros ctx gts u u1 u2 NL1 NL2 cs1 cs2 w d t e s q q' U1 U2 H Q H' Q' env c HR. destruct (H env (S c) HR) as (a & c1 & La & E1 & K1 & N1 & C1 & T1).
  destruct (H' env c1 HR) as (b & c2 & Lb & E2 & K2 & N2 & C2 & T2).
  eexists _, c2, (La ++ (LElse c, push dz d s) :: Lb ++ [(LEnd c, push dz d s)]). split; [unfold gen_if; rewrite E1; cbn [bind fst snd]; rewrite E2; reflexivity|]. cbn [fst snd].
  pose proof (proj2 (proj2 (proj2 K1))) as CC1. pose proof (proj2 (proj2 (proj2 K2))) as CC2.
  split; [|split; [|split]].
  - apply code_skip; [apply labs_regs|]. apply code_skip1; [reflexivity|].
    apply code_dis; [eapply code_piece; [exact K1|lia..]| |].
    + apply code_skip1; [reflexivity|]. apply code_lab1; [cbn [bnd]; lia| |].
      * apply code_dis; [eapply code_piece; [exact K2|lia..]|apply code_lab; cbn [bnd]; lia|].
        intros l Ha [<-|[]]. apply (in_labs_bnd _ _ _ _ _ _ _ K2) in Ha. cbn [bnd] in Ha. lia.
      * rewrite labs_app. intros Hl. apply in_app_or in Hl. destruct Hl as [Hl|[Hl|[]]]; [|discriminate].
        apply (in_labs_bnd _ _ _ _ _ _ _ K2) in Hl. cbn [bnd] in Hl. lia.
    + intros l Ha Hb. apply (in_labs_bnd _ _ _ _ _ _ _ K1) in Ha. cbn [app labs flat_map] in Hb.
      destruct Hb as [<-|Hb]; [cbn [bnd] in Ha; lia|]. fold (labs (b ++ [Lab (LEnd c)])) in Hb. rewrite labs_app in Hb.
      apply in_app_or in Hb. destruct Hb as [Hb|[<-|[]]]; [|cbn [bnd] in Ha; lia].
      apply (in_labs_bnd _ _ _ _ _ _ _ K2) in Hb. destruct l; cbn [bnd] in *; lia.
  - intros x Hx. apply in_or_app. apply in_app_or in Hx. destruct Hx as [Hx|Hx]; [right; right; apply in_or_app; left; apply N2, Hx|left; apply N1, Hx].
  - intros x Hx. apply in_app_or in Hx. destruct Hx as [Hx|Hx]; [destruct (C1 x Hx) as (z & E & Hz)|destruct (C2 x Hx) as (z & E & Hz)]; exists z; (split; [exact E|]);
      apply in_or_app; [left; exact Hz|right; right; apply in_or_app; left; exact Hz].
  - intros G I CX GO. apply incl_app_inv in I. destruct I as [Ia I]. apply incl_cons_inv in I. destruct I as [IE I]. apply incl_app_inv in I. destruct I as [Ib I].
    assert (IN : In (LEnd c, push dz d s) G) by (apply I; left; reflexivity).
    eapply T_app; [apply T_regs|]. apply T_br; [exact IE|].
    eapply T_app; [eapply T_post; [apply T1; assumption|exact Q]|]. apply T_jmp; [exact IN|].
    eapply T_lab; [exact IE|apply le_none|]. eapply T_app; [apply T2; assumption|]. eapply T_lab; [exact IN|exact Q'|apply T_nil, le_refl].
Qed.
Lemma gt_for : forall ctx gts names u u' NL cs w init cond inc b df s l2 q, S (S u) <= u' ->
  stack l2 = push_o dz cond (push dz init s) ->
  GT (mkj false names u (S u) l2 :: ctx) gts (S (S u)) u' NL cs w b (Some (stack l2)) q -> le q (Some (stack l2)) ->
  GT ctx gts 0 0 [] [] None df (Some (stack l2)) (Some (push dz init s)) ->
  (forall n, inc = Some n -> In (n, stack l2) A) ->
  GT ctx gts u u' NL cs w (gen_for dz init cond inc u (S u) b df) (Some s) (Some (stack l2)).
Proof.
  intros ctx gts names u u' NL cs w init cond inc b df s l2 q U ES H Q H' HI env c HR.
  destruct (H env (S c) HR) as (a & c1 & La & E1 & K1 & N1 & C1 & T1).
  destruct (H' env c1 HR) as (d & c2 & Ld & E2 & K2 & _ & _ & T2).
  set (s1 := push dz init s) in *. set (s2 := stack l2) in *.
  eexists _, c2, ((LBegin c, s1) :: La ++ (LU (S u), s2) :: Ld ++ [(LU u, s2)]).
  split; [unfold gen_for; rewrite E1; cbn [bind fst snd]; rewrite E2; reflexivity|]. cbn [fst snd].
  pose proof (proj2 (proj2 (proj2 K1))) as CC1. pose proof (proj2 (proj2 (proj2 K2))) as CC2.
  assert (LC : labs (match cond with Some d0 => regs dz d0 ++ [Br (LU u)] | None => [] end) = []).
  { destruct cond; [|reflexivity]. rewrite labs_app, labs_regs. reflexivity. }
  assert (LI : labs (match inc with Some n => [Act n] | None => [] end) = []) by (destruct inc; reflexivity).
  assert (LD : forall l, In l (labs (d ++ [Jmp (LBegin c); Lab (LU u)])) -> bnd 0 0 c1 c2 l \/ l = LU u).
  { intros l Hl. rewrite labs_app in Hl. apply in_app_or in Hl. destruct Hl as [Hl|[<-|[]]]; [left|right; reflexivity]. apply (in_labs_bnd _ _ _ _ _ _ _ K2 Hl). }
  split; [|split; [|split]].
  - apply code_skip; [apply labs_regs|]. cbn [app]. apply code_lab1; [cbn [bnd]; lia| |].
    + apply code_skip; [exact LC|]. apply code_dis; [eapply code_piece; [exact K1|lia..]| |].
      * cbn [app]. apply code_lab1; [cbn [bnd]; lia| |].
        -- apply code_skip; [exact LI|]. apply code_dis; [eapply code_piece; [exact (code_shift 0 u _ _ _ _ K2)|lia..]| |].
           ++ apply code_skip1; [reflexivity|]. apply code_lab; cbn [bnd]; lia.
           ++ intros l Ha [<-|[]]. apply (in_labs_bnd _ _ _ _ _ _ _ K2) in Ha. cbn [bnd] in Ha. lia.
        -- rewrite labs_app, LI. cbn [app]. intros Hl. apply LD in Hl. destruct Hl as [Hl|Hl]; [cbn [bnd] in Hl; lia|injection Hl as Hl; lia].
      * intros l Ha Hb. apply (in_labs_bnd _ _ _ _ _ _ _ K1) in Ha. cbn [app labs flat_map] in Hb. destruct Hb as [<-|Hb]; [cbn [bnd] in Ha; lia|].
        match type of Hb with In _ ?x => change x with (labs ((match inc with Some n => [Act n] | None => [] end) ++ d ++ [Jmp (LBegin c); Lab (LU u)])) in Hb end.
        rewrite labs_app, LI in Hb. apply LD in Hb. destruct Hb as [Hb| ->]; [destruct l; cbn [bnd] in *; lia|cbn [bnd] in Ha; lia].
    + rewrite labs_app, LC. cbn [app]. rewrite labs_app. intros Hl. apply in_app_or in Hl. destruct Hl as [Hl|Hl].
      * apply (in_labs_bnd _ _ _ _ _ _ _ K1) in Hl. cbn [bnd] in Hl. lia.
      * cbn [app labs flat_map] in Hl. destruct Hl as [Hl|Hl]; [discriminate|].
        match type of Hl with In _ ?x => change x with (labs ((match inc with Some n => [Act n] | None => [] end) ++ d ++ [Jmp (LBegin c); Lab (LU u)])) in Hl end.
        rewrite labs_app, LI in Hl. apply LD in Hl. destruct Hl as [Hl|Hl]; [cbn [bnd] in Hl; lia|discriminate].
  - intros x Hx. right. apply in_or_app. left. apply N1, Hx.
  - intros x Hx. destruct (C1 x Hx) as (z & E & Hz). exists z. split; [exact E|]. right. apply in_or_app. left. exact Hz.
  - intros G I CX GO. apply incl_cons_inv in I. destruct I as [IB I]. apply incl_app_inv in I. destruct I as [Ia I]. apply incl_cons_inv in I. destruct I as [IC I].
    apply incl_app_inv in I. destruct I as [Id I]. assert (IK : In (LU u, s2) G) by (apply I; left; reflexivity).
    eapply T_app; [apply T_regs|]. cbn [app]. eapply T_lab; [exact IB|apply le_refl|].
    eapply T_app with (q := Some s2).
    { fold s1. rewrite ES. destruct cond as [dc|]; cbn [push_o] in *; [|apply T_nil, le_refl]. eapply T_app; [apply T_regs|].
      apply T_br; [rewrite <- ES; exact IK|apply T_nil, le_refl]. }
    eapply T_app; [apply T1; [exact Ia| |exact GO]|].
    { intros j [<-|Hj]; [split; [exact IK|intros _; exact IC]|apply CX; exact Hj]. }
    cbn [app]. eapply T_lab; [exact IC|exact Q|]. eapply T_app with (q := Some s2).
    { destruct inc as [n|]; [|apply T_nil, le_refl]. apply T_act; [apply HI; reflexivity|apply T_nil, le_refl]. }
    eapply T_app; [apply T2; assumption|]. apply T_jmp; [exact IB|]. eapply T_lab; [exact IK|apply le_none|apply T_nil, le_refl].
Qed.
Lemma gt_do : forall ctx gts names u u' NL cs w b l2 q, S (S u) <= u' ->
  GT (mkj false names u (S u) l2 :: ctx) gts (S (S u)) u' NL cs w b (Some (stack l2)) q -> le q (Some (stack l2)) ->
  GT ctx gts u u' NL cs w (gen_do u (S u) b) (Some (stack l2)) (Some (stack l2)).
Proof.
  intros ctx gts names u u' NL cs w b l2 q U H Q env c HR.
  destruct (H env (S c) HR) as (a & c1 & La & E1 & K1 & N1 & C1 & T1). set (s2 := stack l2) in *.
  eexists _, c1, ((LBegin c, s2) :: La ++ [(LU (S u), s2); (LU u, s2)]).
  split; [unfold gen_do; rewrite E1; reflexivity|]. cbn [fst snd].
  pose proof (proj2 (proj2 (proj2 K1))) as CC1.
  split; [|split; [|split]].
  - cbn [app]. apply code_lab1; [cbn [bnd]; lia| |].
    + apply code_dis; [eapply code_piece; [exact K1|lia..]| |].
      * apply code_lab1; [cbn [bnd]; lia| |intros [Hl|[]]; injection Hl as Hl; lia]. apply code_skip1; [reflexivity|]. apply code_lab; cbn [bnd]; lia.
      * intros l Ha Hb. apply (in_labs_bnd _ _ _ _ _ _ _ K1) in Ha. destruct Hb as [<-|[<-|[]]]; cbn [bnd] in Ha; lia.
    + rewrite labs_app. intros Hl. apply in_app_or in Hl. destruct Hl as [Hl|[Hl|[Hl|[]]]]; try discriminate.
      apply (in_labs_bnd _ _ _ _ _ _ _ K1) in Hl. cbn [bnd] in Hl. lia.
  - intros x Hx. right. apply in_or_app. left. apply N1, Hx.
  - intros x Hx. destruct (C1 x Hx) as (z & E & Hz). exists z. split; [exact E|]. right. apply in_or_app. left. exact Hz.
  - intros G I CX GO. apply incl_cons_inv in I. destruct I as [IB I]. apply incl_app_inv in I. destruct I as [Ia I]. apply incl_cons_inv in I. destruct I as [IC I].
    assert (IK : In (LU u, s2) G) by (apply I; left; reflexivity).
    cbn [app]. eapply T_lab; [exact IB|apply le_refl|].
    eapply T_app; [apply T1; [exact Ia| |exact GO]|].
    { intros j [<-|Hj]; [split; [exact IK|intros _; exact IC]|apply CX; exact Hj]. }
    eapply T_lab; [exact IC|exact Q|]. apply T_br; [exact IB|]. eapply T_lab; [exact IK|apply le_refl|apply T_nil, le_refl].
Qed.
Lemma gt_switch : forall ctx gts names u u' NL cs w d b s l2 q, S u <= u' -> stack l2 = push dz d s ->
  GT (mkj true names u 0 l2 :: ctx) gts (S u) u' NL cs (Some (stack l2)) b (Some (stack l2)) q -> le q (Some (stack l2)) ->
  GT ctx gts u u' NL [] w (gen_switch dz d cs u b) (Some s) (Some (stack l2)).
Proof.
  intros ctx gts names u u' NL cs w d b s l2 q U ES H Q env c HR.
  destruct (H env c HR) as (a & c1 & La & E1 & K1 & N1 & C1 & T1). set (s2 := stack l2) in *.
  eexists _, c1, (La ++ [(LU u, s2)]).
  split; [unfold gen_switch; rewrite E1; reflexivity|]. cbn [fst snd].
  pose proof (proj2 (proj2 (proj2 K1))) as CC1.
  split; [|split; [|split]].
  - apply code_skip; [apply labs_regs|]. apply code_skip; [apply labs_brs|]. apply code_skip; [destruct (find _ cs); reflexivity|].
    apply code_skip1; [reflexivity|]. apply code_dis; [eapply code_piece; [exact K1|lia..]|apply code_lab; cbn [bnd]; lia|].
    intros l Ha [<-|[]]. apply (in_labs_bnd _ _ _ _ _ _ _ K1) in Ha. cbn [bnd] in Ha. lia.
  - intros x Hx. apply in_or_app. left. apply N1, Hx.
  - intros x [].
  - intros G I CX GO. apply incl_app_inv in I. destruct I as [Ia I]. assert (IK : In (LU u, s2) G) by (apply I; left; reflexivity).
    assert (CS : forall x, In x cs -> In (LU (snd x), s2) G).
    { intros x Hx. destruct (C1 x Hx) as (z & E & Hz). injection E as <-. apply Ia. exact Hz. }
    eapply T_app; [apply T_regs|]. rewrite <- ES. fold s2.
    eapply T_app with (q := Some s2).
    { match goal with |- T _ _ _ (map _ (filter ?f cs)) _ => assert (FI : incl (filter f cs) cs) by (intros x Hx; apply filter_In in Hx; apply Hx); induction (filter f cs) as [|x r IH] end;
        cbn [map]; [apply T_nil, le_refl|]. apply T_br; [apply CS, FI; left; reflexivity|]. apply IH. intros y Hy. apply FI. right. exact Hy. }
    assert (TB : T A G None (a ++ [Lab (LU u)]) (Some s2)).
    { eapply T_app; [eapply T_none; apply T1; [exact Ia| |exact GO]|].
      - intros j [<-|Hj]; [split; [exact IK|discriminate]|apply CX; exact Hj].
      - eapply T_lab; [exact IK|exact Q|apply T_nil, le_refl]. }
    destruct (find _ cs) as [x|] eqn:F; cbn [app].
    + apply find_some in F. destruct F as [F _]. apply T_jmp; [apply CS; exact F|]. apply T_dead; [reflexivity|exact TB].
    + apply T_jmp; [exact IK|exact TB].
Qed.

(** ** Declarations *)
Lemma declare_ok : forall ctx gts es s R, chain_ok ctx gts (p_cur s) -> NoDup (vlas_of (p_cur s) ++ vla_e es ++ R) ->
  let s' := declare es s in
  (exists pre, p_cur s' = pre ++ p_cur s) /\ p_un s' = p_un s /\ p_labels s' = p_labels s /\ p_gotos s' = p_gotos s /\
  stack (p_cur s') = push dz es (stack (p_cur s)) /\ chain_ok ctx gts (p_cur s') /\ NoDup (vlas_of (p_cur s') ++ R).
Proof.
  intros ctx gts. unfold declare. induction es as [|e es IH]; intros s R CO ND; cbn [fold_left].
  { split; [exists []; reflexivity|]. repeat (split; [reflexivity|]). split; [exact CO|exact ND]. }
  destruct (IH (new_defr (kind_of e) s) R) as ((pre & I1) & I2 & I3 & I4 & I5 & I6 & I7).
  - cbn [new_defr p_cur DeferProofs.chain_ok d_vla d_kind]. split; [|split; [|exact CO]].
    + cbn [map first_vla]. unfold ent at 1. cbn [d_kind]. destruct e; cbn [kind_of first_vla]; try reflexivity; destruct (p_cur s) as [|d r]; try reflexivity; apply CO.
    + destruct e; cbn [kind_of]; try exact Logic.I. apply gt_code; [reflexivity|]. intros G _. apply T_nil, le_refl.
  - unfold vlas_of, vla_e in *. cbn [new_defr p_cur map flat_map] in *. unfold ent at 1. cbn [d_kind].
    destruct e; cbn [kind_of app] in *; try exact ND.
    eapply Permutation_NoDup; [|exact ND]. symmetry. apply Permutation_middle.
  - cbn [new_defr p_cur p_un p_labels p_gotos] in *.
    split; [exists (pre ++ [mkd (p_id s) (kind_of e) match kind_of e with KVla v => Some v | _ => match p_cur s with d :: _ => d_vla d | [] => None end end]); rewrite <- app_assoc; exact I1|].
    split; [exact I2|]. split; [exact I3|]. split; [exact I4|]. split; [|split; [exact I6|exact I7]].
    rewrite I5. unfold push, DeferProofs.stack. cbn [map filter].
    match goal with |- context [live dz (ent ?d)] => assert (EE : ent d = e) by (destruct e; reflexivity) end. rewrite EE.
    destruct (live dz e); [|reflexivity]. cbn [rev]. rewrite <- app_assoc. reflexivity.
Qed.

(** ** Scopes and labels *)
Lemma gt_leave : forall ctx gts u w pre r, chain_ok ctx gts (pre ++ r) -> NoDup (vlas_of (pre ++ r)) ->
  GT ctx gts u u [] [] w (defr_gen dz (pre ++ r) r) (Some (stack (pre ++ r))) (Some (stack r)).
Proof.
  intros ctx gts u w pre r CO ND. eapply gt_shift. apply (gt_defr dz A ctx gts 0 r pre [] CO); [exact ND|left; reflexivity].
Qed.
Lemma gt_nil : forall ctx gts u w l p, GT ctx gts u u [] [] w (defr_gen dz l l) p p.
Proof.
  intros ctx gts u w l p env c HR. exists [], c, []. split; [unfold defr_gen; destruct l; cbn [gen_defr]; rewrite same_ptr_refl; reflexivity|].
  split; [split; [reflexivity|]; split; [constructor|]; split; [intros k []|lia]|]. split; [intros x []|]. split; [intros x []|]. intros. apply T_nil, le_refl.
Qed.
Definition jq (n : pnode) (q : option stk) : option stk := if n_jump n then None else q.
Lemma leave_ok : forall ctx gts u u' NL w p pre d0 n next s n' s', u <= u' ->
  GT ctx gts u u' NL (n_cases n) w (n_gen n) p (jq n (Some (stack (p_cur s)))) ->
  p_cur s = pre ++ d0 -> chain_ok ctx gts (p_cur s) -> NoDup (vlas_of (p_cur s)) ->
  leave_block_scope dz d0 n next s = (n', s') ->
  GT ctx gts u u' NL (n_cases n') w (n_gen n') p (jq n' (Some (stack d0))) /\
  p_cur s' = d0 /\ p_un s' = p_un s /\ p_labels s' = p_labels s /\ p_gotos s' = p_gotos s.
Proof.
  intros ctx gts u u' NL w p pre d0 n next s n' s' U H EC CO ND E. unfold leave_block_scope in E.
  assert (SQ : forall g q, GT ctx gts u' u' [] [] w g (jq n (Some (stack (p_cur s)))) q -> GT ctx gts u u' NL (n_cases n) w (gseq (n_gen n) g) p q).
  { intros g q K. pose proof (gt_seq dz A ctx gts u u' u' NL [] (n_cases n) [] w _ _ _ _ _ U (Nat.le_refl _) H K) as Z. rewrite app_nil_r in Z. exact Z. }
  unfold jq in *. destruct (n_jump n) eqn:J.
  - rewrite same_ptr_refl in E. destruct next; cbn [negb andb] in E; injection E as <- <-; cbn [n_jump n_gen n_cases set_cur p_cur p_un p_labels p_gotos].
    + split; [|repeat split]. apply SQ. eapply gt_le; [apply gt_nil|apply le_refl|apply le_none].
    + rewrite J. split; [exact H|repeat split].
  - destruct (same_ptr (ptr d0) (ptr (p_cur s))) eqn:SP.
    + assert (ED : p_cur s = d0).
      { apply same_ptr_spec in SP. rewrite EC in *. destruct pre as [|x pre]; [reflexivity|]. apply (f_equal (@length _)) in SP. unfold ptr in SP.
        rewrite map_app, app_length, !map_length in SP. cbn [length] in SP. lia. }
      destruct next; cbn [negb andb] in E; injection E as <- <-; cbn [n_jump n_gen n_cases set_cur p_cur p_un p_labels p_gotos].
      * split; [|repeat split]. apply SQ. rewrite ED. apply gt_nil.
      * rewrite J. split; [rewrite <- ED; exact H|repeat split; exact ED].
    + cbn [andb] in E. injection E as <- <-. cbn [n_jump n_gen n_cases set_cur p_cur p_un p_labels p_gotos]. split; [|repeat split].
      apply SQ. rewrite EC. apply gt_leave; rewrite <- EC; assumption.
Qed.
Lemma label_ok : forall ls ctx ctx' gts s code cs s1 w p, label_stmt ls ctx s = Ok (code, cs, s1) -> case_ok w (stack (p_cur s)) ls -> le p (Some (stack (p_cur s))) ->
  p_cur s1 = p_cur s /\ p_gotos s1 = p_gotos s /\ p_un s <= p_un s1 /\
  exists NL, p_labels s1 = NL ++ p_labels s /\
    GT ctx' gts (p_un s) (p_un s1) NL cs w (gcode code) p (match ls with [] => p | _ => Some (stack (p_cur s)) end).
Proof.
  intros ls ctx ctx' gts s code cs s1 w p H CK LP. destruct ls as [|l0 ls].
  { injection H as <- <- <-. split; [reflexivity|]. split; [reflexivity|]. split; [lia|]. exists []. split; [reflexivity|].
    apply gt_code; [reflexivity|]. intros G _. apply T_nil, le_refl. }
  set (L := l0 :: ls) in *. set (s' := mkp (p_cur s) (S (p_un s)) (p_id s) ((names_of L, p_un s, p_cur s) :: p_labels s) (p_gotos s)).
  assert (HC : code = [Lab (LU (p_un s))] /\ s1 = s' /\ (forall x, In x cs -> snd x = p_un s /\ cases_of L <> [])).
  { unfold label_stmt in H. subst L. cbv beta iota zeta in H. destruct (cases_of (l0 :: ls)) as [|c0 cr] eqn:EC.
    - injection H as <- <- <-. split; [reflexivity|]. split; [reflexivity|]. intros x [].
    - destruct (existsb j_switch ctx); [|discriminate]. destruct ctx; [discriminate|]. destruct (same_ptr _ _); [|discriminate].
      injection H as <- <- <-. split; [reflexivity|]. split; [reflexivity|]. intros x Hx. split; [|discriminate].
      change (In x (map (fun d => (d, p_un s)) (c0 :: cr))) in Hx. apply in_map_iff in Hx. destruct Hx as (d & <- & _). reflexivity. }
  destruct HC as (-> & -> & HX). subst s'. cbn [p_cur p_gotos p_un p_labels].
  split; [reflexivity|]. split; [reflexivity|]. split; [lia|]. exists [(names_of L, p_un s, p_cur s)]. split; [reflexivity|].
  intros env c HR. exists [Lab (LU (p_un s))], c, [(LU (p_un s), stack (p_cur s))]. split; [reflexivity|]. split; [apply code_lab; cbn [bnd]; lia|].
  split; [|split].
  - intros x [<-|[]]. left. reflexivity.
  - intros x Hx. destruct (HX x Hx) as [-> NE]. exists (stack (p_cur s)). split; [|left; reflexivity].
    assert (CE : exists d, In (LCase d) L).
    { clear - NE. induction L as [|[n|d] L IH]; [destruct NE; reflexivity|cbn [cases_of flat_map app] in NE; destruct (IH NE) as (d & Hd); exists d; right; exact Hd|exists d; left; reflexivity]. }
    destruct CE as (d & Hd). apply (CK d Hd).
  - intros G I _ _. eapply T_lab; [apply I; left; reflexivity|exact LP|apply T_nil, le_refl].
Qed.

(** ** Statements *)
Definition suf (ctx : list jctx) (l : list dfr) : Prop := forall j, In j ctx -> exists pre, l = pre ++ j_end j.
Definition POST (ctx : list jctx) (s s' : pst) (n : pnode) (w : option stk) (p q : option stk) : Prop :=
  p_un s <= p_un s' /\ incl (p_gotos s) (p_gotos s') /\
  exists NL, p_labels s' = NL ++ p_labels s /\ GT ctx (p_gotos s') (p_un s) (p_un s') NL (n_cases n) w (n_gen n) p (jq n q).
Definition after (x : stmt) (s : stk) : stk := match x with SDefer n _ _ => EDefer n :: s | _ => s end.
Definition SP (x : stmt) : Prop := forall ctx names s n s' w, parse_s dz x ctx names s = Ok (n, s') ->
  defers_s x -> NoDup (vlas_of (p_cur s) ++ vlas_s x) -> chain_ok ctx (p_gotos s) (p_cur s) -> suf ctx (p_cur s) ->
  cases_s dz w x (stack (p_cur s)) -> incl (act_s dz x (stack (p_cur s))) A ->
  POST ctx s s' n w (Some (stack (p_cur s))) (Some (stack (p_cur s'))) /\ chain_ok ctx (p_gotos s') (p_cur s') /\
  map ent (p_cur s') = after x (map ent (p_cur s)) /\ exists pre, p_cur s' = pre ++ p_cur s.
Definition IP (l : items) : Prop := forall ctx last s n s' w, parse_i dz l ctx last s = Ok (n, s') ->
  defers_i l -> NoDup (vlas_of (p_cur s) ++ vlas_i l) -> chain_ok ctx (p_gotos s) (p_cur s) -> suf ctx (p_cur s) ->
  cases_i dz w l (stack (p_cur s)) -> incl (act_i dz l (stack (p_cur s))) A ->
  POST ctx s s' n w (if last then None else Some (stack (p_cur s))) (Some (stack (p_cur s'))) /\ chain_ok ctx (p_gotos s') (p_cur s') /\
  NoDup (vlas_of (p_cur s')) /\ exists pre, p_cur s' = pre ++ p_cur s.
Lemma after_stack : forall x l l', map ent l' = after x (map ent l) -> stack l' = after x (stack l) /\ vlas_of l' = vlas_of l.
Proof. intros x l l' H. unfold DeferProofs.stack, vlas_of. rewrite H. destruct x; split; reflexivity. Qed.
Lemma post_seq : forall ctx s s1 s2 w p q r g1 cs1 NL1 n2,
  p_un s <= p_un s1 -> incl (p_gotos s) (p_gotos s1) -> p_labels s1 = NL1 ++ p_labels s -> GT ctx (p_gotos s1) (p_un s) (p_un s1) NL1 cs1 w g1 p q ->
  POST ctx s1 s2 n2 w q r -> forall j, n_jump n2 = j -> POST ctx s s2 (mkn j (gseq g1 (n_gen n2)) (cs1 ++ n_cases n2)) w p r.
Proof.
  intros ctx s s1 s2 w p q r g1 cs1 NL1 n2 U1 G1 E1 H1 (U2 & G2 & NL2 & E2 & H2) j J. split; [lia|]. split; [eapply incl_tran; eassumption|].
  exists (NL2 ++ NL1). split; [rewrite E2, E1; apply app_assoc|]. cbn [n_gen n_cases]. unfold jq in *. cbn [n_jump]. rewrite <- J.
  eapply gt_seq; [exact U1|exact U2| |exact H2]. eapply gt_gts; eassumption.
Qed.
Lemma suf_app : forall ctx l pre, suf ctx l -> suf ctx (pre ++ l).
Proof. intros ctx l pre H j Hj. destruct (H j Hj) as (p & E). exists (pre ++ p). rewrite E. apply app_assoc. Qed.
Lemma sec_ok : forall x ctx ls s n s' w, SP x -> secondary dz (parse_s dz x ctx) ls ctx s = Ok (n, s') ->
  defers_s x -> NoDup (vlas_of (p_cur s) ++ vlas_s x) -> chain_ok ctx (p_gotos s) (p_cur s) -> suf ctx (p_cur s) ->
  case_ok w (stack (p_cur s)) ls -> cases_s dz w x (stack (p_cur s)) -> incl (act_s dz x (stack (p_cur s))) A ->
  POST ctx s s' n w (Some (stack (p_cur s))) (Some (stack (p_cur s))) /\ p_cur s' = p_cur s.
Proof.
  intros x ctx ls s n s' w HP H D ND CO SU CK CS AC. unfold secondary in H.
  destruct (label_stmt ls ctx s) as [[[code cs] s1]| |] eqn:EL; try discriminate. cbn [bind] in H.
  destruct (label_ok ls ctx ctx (p_gotos s1) s code cs s1 w (Some (stack (p_cur s))) EL CK (le_refl _)) as (L1 & L2 & L3 & NL & L4 & L5).
  destruct (parse_s dz x ctx (names_of ls) s1) as [[nd s2]| |] eqn:EP; try discriminate. cbn [bind] in H. rewrite <- L1, <- L2 in *.
  destruct (HP _ _ _ _ _ _ EP D ND CO SU CS AC) as (PO & CO2 & ME & pre & EC).
  assert (H0 : forall nd0 nx, POST ctx s s2 nd0 w (Some (stack (p_cur s1))) (Some (stack (p_cur s2))) ->
     Ok (leave_block_scope dz (p_cur s1) nd0 nx s2) = Ok (n, s') -> POST ctx s s' n w (Some (stack (p_cur s1))) (Some (stack (p_cur s1))) /\ p_cur s' = p_cur s1).
  { intros nd0 nx (P1 & P2 & NL2 & P3 & P4) E. injection E as E.
    edestruct leave_ok with (1 := P1) (2 := P4) as (K1 & K2 & K3 & K4 & K5); [exact EC|exact CO2| |exact E|].
    { destruct (after_stack _ _ _ ME) as [_ ->]. eapply nodup_l. exact ND. }
    split; [|exact K2]. unfold POST. rewrite K3, K4, K5. split; [exact P1|]. split; [exact P2|]. exists NL2. split; [exact P3|exact K1]. }
  destruct ls as [|l0 ls].
  - injection EL as <- <- <-. apply (H0 nd false); [exact PO|exact H].
  - apply (H0 (mkn false (gseq (gcode code) (n_gen nd)) (cs ++ n_cases nd)) true); [|exact H].
    assert (PO' : POST ctx s s2 (mkn (n_jump nd) (gseq (gcode code) (n_gen nd)) (cs ++ n_cases nd)) w (Some (stack (p_cur s1))) (Some (stack (p_cur s2)))).
    { eapply post_seq with (s1 := s1) (q := Some (stack (p_cur s1))); [exact L3|rewrite L2; apply incl_refl|exact L4| |exact PO|reflexivity]. exact L5. }
    destruct PO' as (P1 & P2 & NL2 & P3 & P4). split; [exact P1|]. split; [exact P2|]. exists NL2. split; [exact P3|]. unfold jq in *. cbn [n_jump n_gen n_cases] in *.
    eapply gt_le; [exact P4|apply le_refl|]. destruct (n_jump nd); [apply le_none|apply le_refl].
Qed.
End Dz.
