(** Proofs of C60, continued: a second definition is an error, whatever the other declarations. *)
From Coq Require Import Ascii String ZArith List Bool Lia.
From Verif Require Import LinkSpec LinkModel LinkProofs LinkMain.
Import ListNotations.
Local Open Scope string_scope.
Local Open Scope Z_scope.
Local Open Scope list_scope.

Lemma bind_inv : forall (A B : Type) (x : res A) (f : A -> res B) b, bind x f = Ok b -> exists a, x = Ok a /\ f a = Ok b.
Proof. intros A B [a|] f b H; [eauto | discriminate]. Qed.

(** * Blocks *)
Record frame0 (s s' : state) : Prop := {
  f0_old : forall i o, nth_error (globals s) i = Some o -> nth_error (globals s') i = Some o;
  f0_tl : tl (scope s') = tl (scope s);
  f0_ne : scope s' <> [] }.
Lemma frame0_refl : forall s, scope s <> [] -> frame0 s s. Proof. intros. constructor; auto. Qed.
Lemma frame0_trans : forall a b c, frame0 a b -> frame0 b c -> frame0 a c.
Proof.
  intros a b c F G. constructor.
  - intros i o N. apply (f0_old _ _ G), (f0_old _ _ F), N.
  - rewrite (f0_tl _ _ G). apply F.
  - apply G.
Qed.
Lemma push_tl : forall x v sc, tl (push_scope x v sc) = tl sc. Proof. intros x v [|f sc]; reflexivity. Qed.
Lemma push_ne : forall x v sc, sc <> [] -> push_scope x v sc <> []. Proof. intros x v [|f sc] H; [congruence | discriminate]. Qed.
Lemma frame0_push : forall x v s, scope s <> [] -> frame0 s (State (globals s) (push_scope x v (scope s)) (recs s)).
Proof. intros x v s N. constructor; cbn [globals scope]; auto using push_tl, push_ne. Qed.
Lemma frame0_new : forall x t f s, scope s <> [] -> frame0 s (change (length (globals s)) f (new_gvar x t s)).
Proof.
  intros x t f s N. constructor; cbn [change new_gvar globals scope]; auto using push_tl, push_ne.
  intros i o H. rewrite update_nth. destruct (Nat.eqb_spec (length (globals s)) i) as [E|E]; [|apply nth_app_l, H].
  subst i. assert (length (globals s) < length (globals s))%nat; [|lia]. apply nth_error_Some. congruence.
Qed.
Lemma frame0_gvar : forall x t s, scope s <> [] -> frame0 s (new_gvar x t s).
Proof. intros x t s N. constructor; cbn [new_gvar globals scope]; auto using push_tl, push_ne. intros i o H. apply nth_app_l, H. Qed.
Definition keeps (P : state -> res (state * list (Z * ref))) : Prop := forall s s' r, scope s <> [] -> P s = Ok (s', r) -> frame0 s s'.
Lemma go_keeps : forall l, Forall (fun b => keeps (block_item b)) l -> keeps (item_go l).
Proof.
  induction l as [|b l IH]; intros FA s s' r N H; cbn [item_go] in H.
  - injection H as <- <-. apply frame0_refl, N.
  - inversion FA; subst. apply bind_inv in H. destruct H as ([s1 r1] & E1 & H). apply bind_inv in H. destruct H as ([s2 r2] & E2 & H).
    cbn [fst snd] in *. injection H as <- <-. pose proof (H2 _ _ _ N E1) as F1. eapply frame0_trans; [exact F1|]. eapply IH; [assumption | apply F1 | exact E2].
Qed.
Lemma item_keeps : forall b, keeps (block_item b).
Proof.
  apply bitem_rect'.
  - intros m FA s s' r N H. rewrite item_block in H. apply bind_inv in H. destruct H as ([s1 r1] & E1 & H). cbn [fst snd] in H. injection H as <- <-.
    assert (F : frame0 (enter s) s1) by (eapply go_keeps; [exact FA | discriminate | exact E1]).
    constructor; unfold leave; cbn [globals scope].
    + apply F.
    + rewrite (f0_tl _ _ F). reflexivity.
    + rewrite (f0_tl _ _ F). exact N.
  - intros b NB s s' r N H. destruct b as [k x|k x|x|x tls t|x ex il|m]; cbn [block_item] in H.
    + apply bind_inv in H. destruct H as (q & _ & H). injection H as <- <-. apply frame0_refl, N.
    + injection H as <- <-. apply frame0_push, N.
    + injection H as <- <-. apply frame0_push, N.
    + apply bind_inv in H. destruct H as (s1 & E & H). injection H as <- <-. unfold declare in E. cbn [negb orb] in E.
      destruct (find_var (scope s) x) as [[i|k|]|].
      * destruct (nth_error (globals s) i); [|discriminate]. injection E as <-. apply frame0_refl, N.
      * injection E as <-. apply frame0_refl, N.
      * injection E as <-. apply frame0_new, N.
      * injection E as <-. apply frame0_new, N.
    + apply bind_inv in H. destruct H as ([i s1] & E & H). cbn [snd] in H. injection H as <- <-. unfold func_prototype in E.
      destruct (find_func x s) as [j|].
      * destruct (nth_error (globals s) j); [|discriminate]. destruct (negb (o_static o) && false); [discriminate|]. injection E as <- <-. apply frame0_refl, N.
      * injection E as <- <-. cbn [orb]; destruct (il && negb ex); [apply frame0_new, N | apply frame0_gvar, N].
    + destruct (NB m eq_refl).
Qed.
Lemma block_keeps : forall l, keeps (block_items l).
Proof. intro l. apply (go_keeps l). apply Forall_forall. intros b _. apply item_keeps. Qed.

(** * At file scope *)
Record J (s : state) : Prop := {
  j_sc : scope s = [top s];
  j_name : forall y i, assoc y (top s) = Some (VGlobal i) -> exists o, nth_error (globals s) i = Some o /\ o_name o = y }.
Record upd (y : string) (i : nat) (s s' : state) : Prop := {
  u_sc : scope s' = [top s'];
  u_at : assoc y (top s') = Some (VGlobal i);
  u_other : forall z, z <> y -> assoc z (top s') = assoc z (top s);
  u_old : forall j o, j <> i -> nth_error (globals s) j = Some o -> nth_error (globals s') j = Some o;
  u_obj : exists o, nth_error (globals s') i = Some o /\ o_name o = y;
  u_where : nth_error (globals s) i = None \/ assoc y (top s) = Some (VGlobal i) }.
Lemma upd_ne : forall y i s s' z j, J s -> upd y i s s' -> z <> y -> assoc z (top s) = Some (VGlobal j) -> j <> i.
Proof.
  intros y i s s' z j HJ U NE A E. subst j. destruct (j_name _ HJ _ _ A) as (o & N & O). destruct (u_where _ _ _ _ U) as [W | W]; [congruence|].
  destruct (j_name _ HJ _ _ W) as (o' & N' & O'). congruence.
Qed.
Lemma upd_J : forall y i s s', J s -> upd y i s s' -> J s'.
Proof.
  intros y i s s' HJ U. constructor; [apply U|]. intros z j A. destruct (string_dec z y) as [-> | NE].
  - rewrite (u_at _ _ _ _ U) in A. injection A as <-. apply U.
  - rewrite (u_other _ _ _ _ U _ NE) in A. pose proof (upd_ne _ _ _ _ _ _ HJ U NE A) as NI. destruct (j_name _ HJ _ _ A) as (o & N & O).
    exists o. split; [apply (u_old _ _ _ _ U _ _ NI N) | exact O].
Qed.
Definition held (P : obj -> Prop) (x : string) (s : state) : Prop :=
  exists i o, assoc x (top s) = Some (VGlobal i) /\ nth_error (globals s) i = Some o /\ P o.
Lemma upd_held : forall P x y i s s', J s -> upd y i s s' -> x <> y -> held P x s -> held P x s'.
Proof.
  intros P x y i s s' HJ U NE (j & o & A & N & H). exists j, o. rewrite (u_other _ _ _ _ U _ NE). split; [exact A|]. split; [|exact H].
  apply (u_old _ _ _ _ U); [|exact N]. eapply upd_ne; eauto.
Qed.
Lemma upd_new : forall y t f s, J s -> (forall o, o_name (f o) = o_name o) ->
  upd y (length (globals s)) s (change (length (globals s)) f (new_gvar y t s)).
Proof.
  intros y t f s HJ FN. assert (NN : nth_error (globals s) (length (globals s)) = None) by (apply nth_error_None; lia).
  constructor; unfold change, new_gvar, top; cbn [globals scope]; rewrite ?(j_sc _ HJ); cbn [push_scope hd assoc].
  - reflexivity.
  - rewrite String.eqb_refl. reflexivity.
  - intros z NE. destruct (String.eqb_spec y z); [congruence | reflexivity].
  - intros j o NJ N. rewrite update_end. apply nth_app_l, N.
  - rewrite update_end. eexists. split; [apply nth_app_end|]. rewrite FN. reflexivity.
  - auto.
Qed.
Lemma upd_gvar : forall y t s, J s -> upd y (length (globals s)) s (new_gvar y t s).
Proof.
  intros y t s HJ. assert (NN : nth_error (globals s) (length (globals s)) = None) by (apply nth_error_None; lia).
  constructor; unfold new_gvar, top; cbn [globals scope]; rewrite ?(j_sc _ HJ); cbn [push_scope hd assoc].
  - reflexivity.
  - rewrite String.eqb_refl. reflexivity.
  - intros z NE. destruct (String.eqb_spec y z); [congruence | reflexivity].
  - intros j o NJ N. apply nth_app_l, N.
  - eexists. split; [apply nth_app_end | reflexivity].
  - auto.
Qed.
Lemma upd_change : forall y i f s, J s -> assoc y (top s) = Some (VGlobal i) -> (forall o, o_name (f o) = o_name o) -> upd y i s (change i f s).
Proof.
  intros y i f s HJ A FN. destruct (j_name _ HJ _ _ A) as (o & N & O). constructor; unfold change, top; cbn [globals scope]; auto.
  - apply (j_sc _ HJ).
  - intros j o' NJ N'. rewrite update_nth. destruct (Nat.eqb_spec i j); [congruence | exact N'].
  - exists (f o). rewrite update_nth, Nat.eqb_refl, N. split; [reflexivity | rewrite FN; exact O].
Qed.
Lemma upd_refl : forall y i s, J s -> assoc y (top s) = Some (VGlobal i) -> upd y i s s.
Proof. intros y i s HJ A. constructor; auto; [apply HJ | apply (j_name _ HJ _ _ A)]. Qed.
Lemma upd_trans : forall y i a b c, upd y i a b -> upd y i b c -> upd y i a c.
Proof.
  intros y i a b c U W. constructor; try apply W; try apply U.
  - intros z NE. rewrite (u_other _ _ _ _ W _ NE). apply (u_other _ _ _ _ U _ NE).
  - intros j o NJ N. apply (u_old _ _ _ _ W _ _ NJ), (u_old _ _ _ _ U _ _ NJ), N.
Qed.
Lemma upd_block : forall y i a b c, upd y i a b -> frame0 (enter b) c -> upd y i a (leave c).
Proof.
  intros y i a b c U F. pose proof (f0_tl _ _ F) as TL. cbn [enter scope tl] in TL.
  assert (SC : scope (leave c) = scope b) by exact TL. assert (TP : top (leave c) = top b) by (unfold top; rewrite SC; reflexivity).
  constructor; rewrite ?TP, ?SC; try apply U.
  - intros j o NJ N. apply (f0_old _ _ F). cbn [enter globals]. apply (u_old _ _ _ _ U _ _ NJ N).
  - destruct (u_obj _ _ _ _ U) as (o & N & O). exists o. split; [|exact O]. apply (f0_old _ _ F). exact N.
Qed.
Definition closed (o : obj) : Prop := o_def o = true /\ o_tent o = false.
Lemma declare_upd : forall y c tls t init s s', J s -> declare y c tls t init s = Ok s' ->
  (s' = s /\ init = None) \/ exists i, upd y i s s' /\ (init <> None -> held closed y s').
Proof.
  intros y c tls t init s s' HJ H. unfold declare in H. rewrite (find_top s y (j_sc _ HJ)) in H.
  set (isdef := negb match c with SExtern => true | _ => false end || match init with Some _ => true | None => false end) in *.
  assert (DEF : init <> None -> isdef = true) by (subst isdef; destruct init; [intros _; apply orb_true_r | congruence]).
  set (f := fun o : obj => Obj (o_name o) (Some (match init with Some (_, u) => u | None => t end)) (o_align o) isdef
     (match c with SStatic | SConstexpr => true | _ => false end) (match init with Some _ => false | None => isdef end) tls
     (match init with Some (d, _) => Some d | None => o_init o end)) in *.
  assert (CL : forall o, init <> None -> closed (f o)) by (intros o NI; split; cbn; [auto | destruct init; [reflexivity | congruence]]).
  destruct (assoc y (top s)) as [[i|k|]|] eqn:A.
  - destruct (j_name _ HJ _ _ A) as (o & N & O). rewrite N in H. destruct isdef eqn:ID; cbn [negb] in H.
    2:{ injection H as <-. left. split; [reflexivity|]. destruct init; [discriminate DEF; discriminate | reflexivity]. }
    destruct (o_def o && negb (o_tent o)). { destruct init; [discriminate|]. injection H as <-. auto. }
    right. exists i. assert (E : s' = change i f s) by (destruct c, init as [[d u]|]; try discriminate H; injection H as <-; reflexivity).
    subst s'. split; [apply upd_change; auto|]. intro NI. exists i, (f o). split; [exact A|]. split; [|apply CL, NI].
    cbn [change globals]. rewrite update_nth, Nat.eqb_refl, N. reflexivity.
  - destruct isdef; cbn [negb] in H; [discriminate|]. injection H as <-. left. split; [reflexivity|]. destruct init; [discriminate DEF; discriminate | reflexivity].
  - right. exists (length (globals s)). assert (E : s' = change (length (globals s)) f (new_gvar y (Some t) s)) by (destruct c, init as [[d u]|]; try discriminate H; injection H as <-; reflexivity).
    subst s'. split; [apply upd_new; auto|]. intro NI. eexists (length (globals s)), (f _). unfold top, change, new_gvar. cbn [globals scope]. rewrite (j_sc _ HJ), update_end. cbn [push_scope hd assoc].
    rewrite String.eqb_refl. split; [reflexivity|]. split; [apply nth_app_end | apply CL, NI].
  - right. exists (length (globals s)). assert (E : s' = change (length (globals s)) f (new_gvar y (Some t) s)) by (destruct c, init as [[d u]|]; try discriminate H; injection H as <-; reflexivity).
    subst s'. split; [apply upd_new; auto|]. intro NI. eexists (length (globals s)), (f _). unfold top, change, new_gvar. cbn [globals scope]. rewrite (j_sc _ HJ), update_end. cbn [push_scope hd assoc].
    rewrite String.eqb_refl. split; [reflexivity|]. split; [apply nth_app_end | apply CL, NI].
Qed.
Definition isfun (o : obj) : Prop := o_ty o = None.
Definition body (o : obj) : Prop := o_ty o = None /\ o_def o = true.
Lemma proto_upd : forall y st ex il s i s', J s -> func_prototype y st ex il s = Ok (i, s') -> upd y i s s' /\ exists o, nth_error (globals s') i = Some o /\ isfun o.
Proof.
  intros y st ex il s i s' HJ H. unfold func_prototype in H. destruct (find_func y s) as [j|] eqn:F.
  - unfold find_func in F. rewrite (j_sc _ HJ) in F. cbn [last] in F. destruct (assoc y (top s)) as [[j'|k|]|] eqn:A; try discriminate.
    destruct (nth_error (globals s) j') as [o|] eqn:N; [|discriminate]. destruct (o_ty o) eqn:T; [discriminate|]. injection F as ->.
    rewrite N in H. destruct (negb (o_static o) && st); [discriminate|]. injection H as <- <-. split; [apply upd_refl; auto|]. exists o. split; [exact N | exact T].
  - injection H as <- <-. destruct (st || il && negb ex).
    + split; [apply upd_new; auto|]. eexists. cbn [change new_gvar globals]. rewrite update_end. split; [apply nth_app_end | reflexivity].
    + split; [apply upd_gvar, HJ|]. eexists. split; [apply nth_app_end | reflexivity].
Qed.
Lemma fun_upd : forall y st ex il b s s' r, J s -> unit_item (IFun y st ex il b) s = Ok (s', r) ->
  exists i, upd y i s s' /\ (b <> None -> held body y s').
Proof.
  intros y st ex il b s s' r HJ H. cbn [unit_item] in H. apply bind_inv in H. destruct H as ([i s1] & P & H). cbn [fst snd] in H.
  destruct (proto_upd _ _ _ _ _ _ _ HJ P) as (U & o & N & T). pose proof (upd_J _ _ _ _ HJ U) as J1. exists i. destruct b as [l|].
  - unfold func_definition in H. rewrite N in H. destruct (o_def o); [discriminate|]. apply bind_inv in H. destruct H as ([s2 r2] & B & H). cbn [fst snd] in H. injection H as <- <-.
    change (fun o => Obj (o_name o) (o_ty o) (o_align o) true (o_static o) (o_tent o) (o_tls o) (o_init o)) with setdef in B.
    assert (F : frame0 (enter (change i setdef s1)) s2) by (eapply block_keeps; [|exact B]; discriminate).
    assert (U2 : upd y i s (change i setdef s1)) by (eapply upd_trans; [exact U | apply upd_change; auto; apply U]).
    pose proof (upd_block _ _ _ _ _ U2 F) as U3. split; [exact U3|]. intros _. exists i, (setdef o). split; [apply U3|]. split; [|split; [exact T | reflexivity]].
    apply (f0_old _ _ F). cbn [enter change globals]. rewrite update_nth, Nat.eqb_refl, N. reflexivity.
  - injection H as <- <-. split; [exact U | congruence].
Qed.

(** * Counting *)
Definition inits_of (x : string) (p : list item) : nat :=
  length (filter (fun i => match i with IVar y _ _ _ (Some _) => String.eqb y x | _ => false end) p).
Definition bodies_of (x : string) (p : list item) : nat :=
  length (filter (fun i => match i with IFun y _ _ _ (Some _) => String.eqb y x | _ => false end) p).
Lemma rec_same : forall j z a s s' r P x, J s -> unit_item (IRec j z a) s = Ok (s', r) -> J s' /\ (held P x s -> held P x s').
Proof. intros j z a s s' r P x HJ H. cbn [unit_item] in H. injection H as <- <-. split; [|auto]. destruct HJ as [A B]. constructor; assumption. Qed.
Lemma inits_once : forall x p s s' r, J s -> unit_items p s = Ok (s', r) -> (forall st ex il b, ~ In (IFun x st ex il b) p) ->
  (held closed x s -> inits_of x p = 0%nat) /\ (inits_of x p <= 1)%nat.
Proof.
  intros x. induction p as [|i p IH]; intros s s' r HJ H NF; cbn [unit_items] in H; [split; [reflexivity | apply Nat.le_0_l]|].
  apply bind_inv in H. destruct H as ([s1 r1] & E1 & H). apply bind_inv in H. destruct H as ([s2 r2] & E2 & _). cbn [fst snd] in *.
  assert (NF' : forall st ex il b, ~ In (IFun x st ex il b) p) by (intros st ex il b K; apply (NF st ex il b); right; exact K).
  destruct i as [j z a|y c tls t init|y st ex il b].
  - destruct (rec_same _ _ _ _ _ _ closed x HJ E1) as [J1 K1]. destruct (IH _ _ _ J1 E2 NF') as [A B]. split; [|exact B]. intro G. apply A, K1, G.
  - cbn [unit_item] in E1. apply bind_inv in E1. destruct E1 as (s3 & DE & E1). injection E1 as -> _.
    destruct (string_dec y x) as [-> | NE].
    + assert (D : held closed x s -> init = None /\ s1 = s).
      { intros (i & o & A & N & [D1 D2]). unfold declare in DE. rewrite (find_top s x (j_sc _ HJ)), A, N in DE.
        rewrite D1, D2 in DE. cbn [andb negb] in DE. destruct init as [q|].
        - rewrite orb_true_r in DE. discriminate.
        - split; [reflexivity|]. destruct (negb _) in DE; injection DE as <-; reflexivity. }
      destruct (declare_upd _ _ _ _ _ _ _ HJ DE) as [[-> ->] | (i & U & HC)].
      * destruct (IH _ _ _ HJ E2 NF') as [A B]. unfold inits_of in *. cbn [filter]. auto.
      * destruct (IH _ _ _ (upd_J _ _ _ _ HJ U) E2 NF') as [A B]. unfold inits_of in *. cbn [filter]. rewrite String.eqb_refl. destruct init as [q|].
        -- cbn [length]. rewrite A by (apply HC; discriminate). split; [|lia]. intro G. destruct (D G). discriminate.
        -- split; [|exact B]. intro G. destruct (D G) as [_ ->]. auto.
    + assert (CE : inits_of x (IVar y c tls t init :: p) = inits_of x p).
      { unfold inits_of. cbn [filter]. destruct init; [|reflexivity]. destruct (String.eqb_spec y x); [congruence | reflexivity]. }
      rewrite CE. destruct (declare_upd _ _ _ _ _ _ _ HJ DE) as [[-> _] | (i & U & _)]; [eapply IH; eauto|].
      destruct (IH _ _ _ (upd_J _ _ _ _ HJ U) E2 NF') as [A B]. split; [|exact B]. intro G. apply A. eapply upd_held; eauto.
  - assert (NE : x <> y) by (intros ->; apply (NF st ex il b); left; reflexivity).
    destruct (fun_upd _ _ _ _ _ _ _ _ HJ E1) as (i & U & _). destruct (IH _ _ _ (upd_J _ _ _ _ HJ U) E2 NF') as [A B].
    split; [|exact B]. intro G. apply A. eapply upd_held; eauto.
Qed.
Lemma bodies_once : forall x p s s' r, J s -> unit_items p s = Ok (s', r) -> (forall c tls t i, ~ In (IVar x c tls t i) p) ->
  (held body x s -> bodies_of x p = 0%nat) /\ (bodies_of x p <= 1)%nat.
Proof.
  intros x. induction p as [|i p IH]; intros s s' r HJ H NF; cbn [unit_items] in H; [split; [reflexivity | apply Nat.le_0_l]|].
  apply bind_inv in H. destruct H as ([s1 r1] & E1 & H). apply bind_inv in H. destruct H as ([s2 r2] & E2 & _). cbn [fst snd] in *.
  assert (NF' : forall c tls t i, ~ In (IVar x c tls t i) p) by (intros c tls t i' K; apply (NF c tls t i'); right; exact K).
  destruct i as [j z a|y c tls t init|y st ex il b].
  - destruct (rec_same _ _ _ _ _ _ body x HJ E1) as [J1 K1]. destruct (IH _ _ _ J1 E2 NF') as [A B]. split; [|exact B]. intro G. apply A, K1, G.
  - assert (NE : x <> y) by (intros ->; apply (NF c tls t init); left; reflexivity).
    cbn [unit_item] in E1. apply bind_inv in E1. destruct E1 as (s3 & DE & E1). injection E1 as -> _.
    destruct (declare_upd _ _ _ _ _ _ _ HJ DE) as [[-> _] | (i & U & _)]; [eapply IH; eauto|].
    destruct (IH _ _ _ (upd_J _ _ _ _ HJ U) E2 NF') as [A B]. split; [|exact B]. intro G. apply A. eapply upd_held; eauto.
  - destruct (fun_upd _ _ _ _ _ _ _ _ HJ E1) as (i & U & HB). destruct (IH _ _ _ (upd_J _ _ _ _ HJ U) E2 NF') as [A B].
    destruct (string_dec y x) as [-> | NE].
    + assert (D : held body x s -> b = None /\ s1 = s).
      { intros (j & o & AS & N & [T D1]). cbn [unit_item] in E1. apply bind_inv in E1. destruct E1 as ([i' s3] & P & E1). cbn [fst snd] in E1.
        unfold func_prototype, find_func in P. rewrite (j_sc _ HJ) in P. cbn [last] in P. rewrite AS, N, T, N in P. destruct (negb (o_static o) && st); [discriminate|].
        injection P as <- <-. destruct b as [l|]; [|injection E1 as <- _; auto]. unfold func_definition in E1. rewrite N, D1 in E1. discriminate. }
      unfold bodies_of in *. cbn [filter]. destruct b as [l|].
      * rewrite String.eqb_refl. cbn [length]. rewrite A by (apply HB; discriminate). split; [|lia]. intro G. destruct (D G). discriminate.
      * split; [|exact B]. intro G. destruct (D G) as [_ ->]. auto.
    + assert (CE : bodies_of x (IFun y st ex il b :: p) = bodies_of x p).
      { unfold bodies_of. cbn [filter]. destruct b; [|reflexivity]. destruct (String.eqb_spec y x); [congruence | reflexivity]. }
      rewrite CE. split; [|exact B]. intro G. apply A. eapply upd_held; eauto.
Qed.
Lemma J_start : J (State [] [[]] []). Proof. constructor; [reflexivity|]. intros y i A. discriminate. Qed.
Lemma one_definition : forall p s r x, parse_unit p = Ok (s, r) ->
  ((forall st ex il b, ~ In (IFun x st ex il b) p) ->
   (length (filter (fun i => match i with IVar y _ _ _ (Some _) => String.eqb y x | _ => false end) p) <= 1)%nat) /\
  ((forall c tls t i, ~ In (IVar x c tls t i) p) ->
   (length (filter (fun i => match i with IFun y _ _ _ (Some _) => String.eqb y x | _ => false end) p) <= 1)%nat).
Proof.
  intros p s r x H. split; intro N.
  - apply (inits_once x p _ _ _ J_start H N).
  - apply (bodies_once x p _ _ _ J_start H N).
Qed.
