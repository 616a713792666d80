(** Proofs of C60: the declarations of a translation unit. *)
From Coq Require Import Ascii String ZArith List Bool Lia.
From Verif Require Import LinkSpec LinkModel LinkProofs.
Import ListNotations.
Local Open Scope string_scope.
Local Open Scope Z_scope.
Local Open Scope list_scope.

Definition sel (x : string) (l : list fact) : list fact := filter (fun f => String.eqb (f_name f) x) l.
Definition fl (x : string) (l : list fact) : list fact := filed (sel x l).
Lemma fl_app : forall x l m, fl x (l ++ m) = fl x l ++ fl x m.
Proof. intros. unfold fl, filed, sel. rewrite !filter_app. reflexivity. Qed.
Lemma fl_one : forall F, f_file F = true -> fl (f_name F) [F] = [F].
Proof. intros F H. unfold fl, filed, sel. cbn [filter]. rewrite String.eqb_refl. cbn [filter]. rewrite H. reflexivity. Qed.
Lemma fl_other : forall F y, f_name F <> y -> fl y [F] = [].
Proof. intros F y H. unfold fl, filed, sel. cbn [filter]. destruct (String.eqb_spec (f_name F) y); [contradiction | reflexivity]. Qed.
Lemma fl_block : forall y B, Forall (fun f => f_file f = false) B -> fl y B = [].
Proof.
  intros y B H. unfold fl, filed, sel. induction H as [|f B H _ IH]; cbn [filter]; [reflexivity|].
  destruct (String.eqb (f_name f) y); cbn [filter]; [rewrite H|]; exact IH.
Qed.
Lemma in_fl : forall x l f, In f (fl x l) <-> In f l /\ f_name f = x /\ f_file f = true.
Proof.
  intros x l f. unfold fl, filed, sel. rewrite !filter_In. rewrite String.eqb_eq. tauto.
Qed.

(** * Types *)
Lemma layout_align : forall r t s a, layout r t = Some (s, a) -> talign r t = a /\ tsize r t = s.
Proof.
  induction t as [s0 a0|i|n t IH]; intros s a H; cbn [layout talign tsize] in *.
  - injection H as <- <-. auto.
  - rewrite H. auto.
  - destruct n as [n|]; [|discriminate]. destruct (layout r t) as [[s1 a1]|]; [|discriminate]. injection H as <- <-.
    destruct (IH _ _ eq_refl) as [-> ->]. split; [reflexivity | lia].
Qed.
Lemma rec_of_in : forall r i q, rec_of r i = Some q -> In (i, q) r.
Proof.
  induction r as [|[j q'] r IH]; intros i q H; cbn [rec_of] in H; [discriminate|].
  destruct (Z.eqb_spec j i); [injection H as <-; subst; left; reflexivity | right; auto].
Qed.
Lemma rec_of_new : forall r i j p q, ~ In i (map fst r) -> rec_of r j = Some q -> rec_of ((i, p) :: r) j = Some q.
Proof.
  intros r i j p q N H. cbn [rec_of]. destruct (Z.eqb_spec i j); [|exact H]. subst. destruct N. apply in_map_iff. exists (j, q). split; [reflexivity | apply rec_of_in, H].
Qed.
Lemma layout_new : forall r i p t q, ~ In i (map fst r) -> layout r t = Some q -> layout ((i, p) :: r) t = Some q.
Proof.
  intros r i p. induction t as [s a|j|n t IH]; intros q N H; cbn [layout] in *.
  - exact H.
  - apply rec_of_new; auto.
  - destruct n; [|discriminate]. destruct (layout r t) as [[s a]|]; [|discriminate]. rewrite (IH _ N eq_refl). exact H.
Qed.
Lemma talign_elem : forall r t, talign r t = talign r (elem t).
Proof. destruct t; reflexivity. Qed.
Lemma complete_align : forall r t, complete_now r t = true -> exists s a, layout r (elem t) = Some (s, a) /\ talign r t = a.
Proof.
  intros r t H. unfold complete_now in H. destruct (layout r (elem t)) as [[s a]|] eqn:E; [|discriminate]. exists s, a. split; [reflexivity|].
  rewrite talign_elem. eapply layout_align, E.
Qed.
Lemma complete_new : forall r i p t, ~ In i (map fst r) -> complete_now r t = true ->
  complete_now ((i, p) :: r) t = true /\ talign ((i, p) :: r) t = talign r t.
Proof.
  intros r i p t N H. destruct (complete_align _ _ H) as (s & a & L & A). pose proof (layout_new _ i p _ _ N L) as L'. split.
  - unfold complete_now. rewrite L'. reflexivity.
  - rewrite A, talign_elem. eapply layout_align, L'.
Qed.

(** * The invariant *)
Definition defn (f : fact) : bool := match f_what f with FObj Ext _ _ _ _ => false | FObj _ _ _ _ _ => true | FFun _ _ => false end.
Definition tent_of (h : how) : bool := match h with Tent => true | _ => false end.
Definition objst (r : table) (l : list fact) (o : obj) : Prop :=
  match l with
  | [] => False
  | f :: _ =>
      match f_what f with
      | FObj _ _ t1 _ d1 =>
          (exists t, o_ty o = Some t) /\ (d1 = true -> complete_now r t1 = true /\ o_align o = talign r t1) /\
          o_init o = hd_error (inits l) /\ o_def o = existsb defn l /\
          (o_def o = true -> exists g h s t c d, In g l /\ f_what g = FObj h s t c d /\ h <> Ext /\ o_ty o = Some t /\
             o_tent o = tent_of h /\ o_static o = s /\ o_tls o = c) /\
          (o_def o = true -> o_tent o = match inits l with [] => true | _ => false end)
      | FFun i b => o_ty o = None /\ o_def o = negb (Nat.eqb (bodies l) 0) /\ o_static o = negb (external (f_link f)) || i
      end
  end.
Definition top (s : state) : list (string * vsc) := hd [] (scope s).
Record inv (D : list fact) (r : table) (e : env) (s : state) : Prop := {
  i_sc : scope s = [top s];
  i_R : R (globals s) (scope s) e;
  i_recs : recs s = r;
  i_none : forall x, fl x D = [] -> assoc x (top s) = None;
  i_file : forall x, fl x D <> [] -> exists i o, assoc x (top s) = Some (VGlobal i) /\ nth_error (globals s) i = Some o /\ o_name o = x /\ objst r (fl x D) o;
  i_def : forall i o, nth_error (globals s) i = Some o -> o_def o = true -> assoc (o_name o) (top s) = Some (VGlobal i) }.
Lemma inv_set : forall D r e s F e' s' i o, inv D r e s -> f_file F = true ->
  R (globals s') (scope s') e' -> scope s' = [top s'] -> recs s' = r ->
  (forall y, y <> f_name F -> assoc y (top s') = assoc y (top s)) ->
  assoc (f_name F) (top s') = Some (VGlobal i) -> nth_error (globals s') i = Some o -> o_name o = f_name F ->
  (forall j, j <> i -> nth_error (globals s') j = nth_error (globals s) j) ->
  (assoc (f_name F) (top s) = None /\ nth_error (globals s) i = None) \/ assoc (f_name F) (top s) = Some (VGlobal i) ->
  objst r (fl (f_name F) D ++ [F]) o -> inv (D ++ [F]) r e' s'.
Proof.
  intros D r e s F e' s' i o V FF HR HS HC HO HX HN HM HJ HP HB.
  assert (NI : forall y j o', y <> f_name F -> fl y D <> [] -> assoc y (top s) = Some (VGlobal j) -> nth_error (globals s) j = Some o' -> o_name o' = y -> j <> i).
  { intros y j o' NY NE A N O E. subst j. destruct HP as [[_ P] | P]; [congruence|].
    assert (NX : fl (f_name F) D <> []). { intro Q. rewrite (i_none _ _ _ _ V _ Q) in P. discriminate. }
    destruct (i_file _ _ _ _ V _ NX) as (i1 & o1 & A1 & N1 & O1 & _). rewrite P in A1. injection A1 as <-. rewrite N in N1. congruence. }
  constructor; auto.
  - intros x H. rewrite fl_app in H. apply app_eq_nil in H. destruct H as [H1 H2].
    assert (NX : x <> f_name F). { intros ->. rewrite fl_one in H2 by assumption. discriminate. }
    rewrite (HO _ NX). apply (i_none _ _ _ _ V _ H1).
  - intros x H. destruct (string_dec x (f_name F)) as [-> | NX].
    + exists i, o. rewrite fl_app, fl_one by assumption. auto.
    + rewrite fl_app, fl_other in * by congruence. rewrite app_nil_r in *. destruct (i_file _ _ _ _ V _ H) as (j & o' & A & N & O & B).
      exists j, o'. rewrite (HO _ NX), HJ by (eapply NI; eauto). auto.
  - intros j o' N DF. destruct (Nat.eq_dec j i) as [-> | NJ].
    + rewrite N in HN. injection HN as <-. rewrite HM. exact HX.
    + rewrite HJ in N by assumption. pose proof (i_def _ _ _ _ V _ _ N DF) as A. destruct (string_dec (o_name o') (f_name F)) as [EQ | NE].
      * rewrite EQ in *. destruct HP as [[P _] | P]; congruence.
      * rewrite (HO _ NE). exact A.
Qed.
Lemma inv_block : forall D r e s s1 B, inv D r e s -> frame (enter s) s1 -> Forall (fun f => f_file f = false) B -> inv (D ++ B) r e (leave s1).
Proof.
  intros D r e s s1 B V F FB. pose proof (fr_tl _ _ F) as TL. cbn [enter scope tl] in TL.
  assert (SC : scope (leave s1) = scope s) by (unfold leave; cbn [scope]; exact TL).
  assert (TP : top (leave s1) = top s) by (unfold top; rewrite SC; reflexivity).
  assert (FL : forall x, fl x (D ++ B) = fl x D) by (intro x; rewrite fl_app, (fl_block _ _ FB), app_nil_r; reflexivity).
  constructor.
  - rewrite TP, SC. apply (i_sc _ _ _ _ V).
  - rewrite SC. unfold leave. cbn [globals]. eapply R_ext; [apply (frame_ext _ _ F) | apply (i_R _ _ _ _ V)].
  - unfold leave. cbn [recs]. rewrite (fr_recs _ _ F). apply (i_recs _ _ _ _ V).
  - intros x H. rewrite FL in H. rewrite TP. apply (i_none _ _ _ _ V _ H).
  - intros x H. rewrite FL in *. rewrite TP. destruct (i_file _ _ _ _ V _ H) as (i & o & A & N & O & S). exists i, o. split; [exact A|]. split; [|auto].
    unfold leave. cbn [globals]. apply (fr_old _ _ F). exact N.
  - intros i o N DF. rewrite TP. unfold leave in N. cbn [globals] in N. destruct (fr_new _ _ F _ _ N) as [K | K]; [|congruence].
    apply (i_def _ _ _ _ V _ _ K DF).
Qed.

(** * Blocks hold no definitions *)
Definition declares (f : fact) : Prop := f_file f = false /\ match f_what f with FObj h _ _ _ _ => h = Ext | FFun _ b => b = false end.
Lemma one_declares : forall done b e e' f u, one done b e = (e', f, u) -> Forall declares f.
Proof.
  intro done. apply (bitem_rect' (fun b => forall e e' f u, one done b e = (e', f, u) -> Forall declares f)).
  - intros m FA e e' f u H. rewrite one_block in H. destruct (one_go done m ([] :: e)) as [[e1 f1] u1] eqn:G. injection H as <- <- <-.
    revert e1 f1 u1 G. generalize ([] :: e). induction m as [|b m IH]; intros e0 e1 f1 u1 G; cbn [one_go] in G.
    + injection G as <- <- <-. constructor.
    + inversion FA; subst. destruct (one done b e0) as [[e2 f2] u2] eqn:O. destruct (one_go done m e2) as [[e3 f3] u3] eqn:G3.
      injection G as <- <- <-. apply Forall_app. split; [eapply H1, O | eapply IH, G3; assumption].
  - intros b NB e e' f u H. destruct b; try (destruct (NB l eq_refl)); cbn [one] in H; injection H as <- <- <-; repeat constructor.
Qed.
Lemma block_declares : forall done l e e' f u, block done l e = (e', f, u) -> Forall declares f.
Proof.
  induction l as [|b l IH]; intros e e' f u H; cbn [block] in H.
  - injection H as <- <- <-. constructor.
  - destruct (one done b e) as [[e1 f1] u1] eqn:O. destruct (block done l e1) as [[e2 f2] u2] eqn:B. injection H as <- <- <-.
    apply Forall_app. split; [eapply one_declares, O | eapply IH, B].
Qed.

(** * One declaration *)
Lemma update_end : forall (g : list obj) (f : obj -> obj) o, update (g ++ [o]) (length g) f = g ++ [f o].
Proof. intros g f o. induction g as [|a g IH]; cbn; [reflexivity | rewrite IH; reflexivity]. Qed.
Lemma defn_app : forall l F, existsb defn (l ++ [F]) = existsb defn l || defn F.
Proof. intros. rewrite existsb_app. cbn [existsb]. rewrite orb_false_r. reflexivity. Qed.
Section Unit.
Variable p : list item.
Hypothesis VP : valid p.
Hypothesis HP : handled p.
Lemma inits_app : forall l m, inits (l ++ m) = inits l ++ inits m. Proof. intros. unfold inits. apply flat_map_app. Qed.
Lemma bodies_app : forall l m, bodies (l ++ m) = (bodies l + bodies m)%nat.
Proof. intros. unfold bodies. rewrite filter_app, app_length. reflexivity. Qed.
Lemma inits_filed : forall l, (length (inits (filed l)) <= length (inits l))%nat.
Proof.
  induction l as [|f l IH]; [apply le_n|]. unfold filed. cbn [filter]. fold (filed l). destruct (f_file f).
  - change (f :: filed l) with ([f] ++ filed l). change (f :: l) with ([f] ++ l). rewrite !inits_app, !app_length. lia.
  - change (f :: l) with ([f] ++ l). rewrite inits_app, app_length. lia.
Qed.
Lemma bodies_filed : forall l, (bodies (filed l) <= bodies l)%nat.
Proof.
  induction l as [|f l IH]; [apply le_n|]. unfold filed. cbn [filter]. fold (filed l). destruct (f_file f).
  - change (f :: filed l) with ([f] ++ filed l). change (f :: l) with ([f] ++ l). rewrite !bodies_app. lia.
  - change (f :: l) with ([f] ++ l). rewrite bodies_app. lia.
Qed.
Lemma one_def : forall x, (bodies (fl x (facts p)) + length (inits (fl x (facts p))) <= 1)%nat.
Proof. intro x. pose proof (v_one _ VP x) as H. pose proof (inits_filed (about x p)). pose proof (bodies_filed (about x p)). unfold fl, sel. unfold about in *. lia. Qed.
Lemma find_top : forall s x, scope s = [top s] -> find_var (scope s) x = assoc x (top s).
Proof. intros s x H. rewrite H. cbn [find_var]. destruct (assoc x (top s)); reflexivity. Qed.

Lemma var_step : forall x c tls t init r e D E s, facts p = D ++ snd (fst (item_facts (IVar x c tls t init) r e)) ++ E ->
  In (IVar x c tls t init) p -> inv D r e s ->
  exists s1, declare x c tls t init s = Ok s1 /\ inv (D ++ snd (fst (item_facts (IVar x c tls t init) r e))) r (snd (fst (fst (item_facts (IVar x c tls t init) r e)))) s1.
Proof.
  intros x c tls t init r e D E s FE IN V.
  cbn [item_facts fst snd] in *.
  set (n := match c with SStatic | SConstexpr => Internal | SExtern => extern_link e x | SNone => External end) in *.
  set (t' := match init with Some (_, u) => u | None => t end) in *.
  set (h := match init, c with Some (d, _), _ => Def d | None, SExtern => Ext | None, _ => Tent end) in *.
  set (sf := match c with SStatic | SConstexpr => true | _ => false end) in *.
  set (F := Fact x n true (visible e x) (FObj h sf t' tls (complete_now r t'))) in *.
  assert (INF : In F (facts p)) by (rewrite FE; apply in_app_iff; right; left; reflexivity).
  pose proof (i_sc _ _ _ _ V) as SC. pose proof (find_top s x SC) as FV.
  unfold declare. rewrite FV.
  set (isdef := negb match c with SExtern => true | _ => false end || match init with Some _ => true | None => false end).
  assert (ID : isdef = match h with Ext => false | _ => true end) by (subst isdef h; destruct init as [[d u]|], c; reflexivity).
  assert (CE : c = SConstexpr -> init <> None) by (intros -> ->; apply (v_constexpr _ VP _ _ _ IN)).
  assert (AL : forall r, talign r t = talign r t').
  { intro r'. subst t'. destruct init as [[d u]|]; [|reflexivity]. destruct (v_init _ VP _ _ _ _ _ _ IN) as [_ [-> | (m & q & -> & ->)]]; reflexivity. }
  destruct (fl x D) as [|f0 l0] eqn:FD.
  - (* a new object *)
    rewrite (i_none _ _ _ _ V _ FD).
    set (o1 := Obj x (Some t') (talign r t) isdef sf (match init with Some _ => false | None => isdef end) tls (match init with Some (d, _) => Some d | None => None end)).
    assert (RV : rel (globals s) x None (visible e x)).
    { rewrite <- (i_none _ _ _ _ V _ FD), <- FV. apply R_at, (i_R _ _ _ _ V). }
    match goal with |- exists s1, ?m = Ok s1 /\ _ =>
      assert (EQ : m = Ok (State (globals s ++ [o1]) [(x, VGlobal (length (globals s))) :: top s] r)) end.
    { pose proof (update_end (globals s)) as U.
      unfold new_gvar, change. cbn [globals scope recs]. rewrite U. rewrite SC. cbn [push_scope]. rewrite (i_recs _ _ _ _ V).
      subst o1 isdef sf t'. destruct c, init as [[d u]|]; try reflexivity. destruct (CE eq_refl eq_refl). }
    rewrite EQ. eexists. split; [reflexivity|].
    apply (inv_set D r e s F) with (i := length (globals s)) (o := o1); auto; try (unfold top at 1); cbn [globals scope recs hd assoc F f_name].
    + assert (X : [(x, VGlobal (length (globals s))) :: top s] = push_scope x (VGlobal (length (globals s))) (scope s)) by (rewrite SC; reflexivity).
      rewrite X. apply R_push; [rewrite SC; discriminate | eapply R_ext; [apply ext_app | apply (i_R _ _ _ _ V)] |].
      cbn [rel]. exists o1. split; [apply nth_app_end | reflexivity].
    + intros y NY. destruct (String.eqb_spec x y); [congruence | reflexivity].
    + rewrite String.eqb_refl. reflexivity.
    + apply nth_app_end.
    + intros j NJ. destruct (nth_error (globals s ++ [o1]) j) as [oj|] eqn:N.
      * apply nth_app_inv in N. destruct N as [N | [N _]]; congruence.
      * destruct (nth_error (globals s) j) as [oj|] eqn:N2; [|reflexivity]. apply (nth_app_l _ _ [o1]) in N2. congruence.
    + left. split; [apply (i_none _ _ _ _ V _ FD) |]. apply nth_error_None. lia.
    + cbn [f_name F] in *. rewrite FD. cbn [app objst F f_what]. subst o1. cbn [o_ty o_align o_def o_static o_tent o_tls o_init].
      split; [eauto|]. split. { intro CN. split; [exact CN | apply AL]. }
      unfold inits, existsb, defn. cbn [flat_map F f_what]. split.
      { subst h. destruct init as [[d u]|]; [reflexivity|]. destruct c; reflexivity. }
      split. { rewrite ID. destruct h; reflexivity. }
      split.
      * intro DF. exists F, h, sf, t', tls, (complete_now r t'). split; [left; reflexivity|]. split; [reflexivity|].
        split. { intro HE. rewrite HE in ID. congruence. }
        split; [reflexivity|]. split; [|auto]. subst h. destruct init as [[d u]|]; [reflexivity|]. rewrite DF. destruct c; try reflexivity. cbn in DF. discriminate.
      * intro DF. subst h. destruct init as [[d u]|]; [reflexivity|]. rewrite DF. destruct c; reflexivity.
  - (* seen before *)
    assert (NE : fl x D <> []) by (rewrite FD; discriminate).
    destruct (i_file _ _ _ _ V x NE) as (i & o & A & N & O & S). rewrite A, N.
    assert (INf : In f0 (facts p) /\ f_name f0 = x /\ f_file f0 = true).
    { assert (In f0 (fl x D)) by (rewrite FD; left; reflexivity). apply in_fl in H. destruct H as (H & H1 & H2). split; [|auto]. rewrite FE. apply in_app_iff. auto. }
    destruct INf as (INf & NM & FFI).
    destruct (v_link _ VP f0 F INf INF) as [LK OB]; [exact NM|].
    rewrite FD in S. unfold objst in S. unfold is_obj in OB. destruct (f_what f0) as [h0 s0 t0 c0 d0|] eqn:W0; [|discriminate OB].
    destruct S as ((ty & TY) & AN & IT & DF & WH & TN).
    assert (SAME : forall o', nth_error (globals s) i = Some o' -> objst r (fl x D ++ [F]) o' ->
       inv (D ++ [F]) r (bind_name x (ELink n (Some (seen_type e x t'))) e) s).
    { intros o' N' S'. apply (inv_set D r e s F) with (i := i) (o := o'); auto.
      - apply R_same; [apply (i_R _ _ _ _ V)|]. rewrite FV, A. cbn [rel]. eauto.
      - apply (i_recs _ _ _ _ V).
      - cbn [F f_name]. congruence. }
    destruct isdef eqn:ISD; cbn [negb].
    2:{ eexists. split; [reflexivity|]. apply (SAME o N). rewrite FD. cbn [app objst]. rewrite W0.
        assert (HE : h = Ext) by (destruct h; [reflexivity | discriminate | discriminate]).
        assert (IE : inits (f0 :: l0 ++ [F]) = inits (f0 :: l0)).
        { change (f0 :: l0 ++ [F]) with ((f0 :: l0) ++ [F]). rewrite inits_app. unfold inits at 2. cbn [flat_map F f_what]. rewrite HE. cbn. apply app_nil_r. }
        rewrite IE. split; [eauto|]. split; [exact AN|]. split; [exact IT|]. split.
        { change (f0 :: l0 ++ [F]) with ((f0 :: l0) ++ [F]). rewrite defn_app. unfold defn at 2. cbn [F f_what]. rewrite HE. rewrite DF. rewrite orb_false_r. reflexivity. }
        split; [|exact TN]. intro DD. destruct (WH DD) as (g & h1 & s1 & t1 & c1 & d1 & IG & K). exists g, h1, s1, t1, c1, d1. split; [|exact K].
        change (f0 :: l0 ++ [F]) with ((f0 :: l0) ++ [F]). apply in_app_iff. left. exact IG. }
    destruct (o_def o && negb (o_tent o)) eqn:DT.
    + (* defined already *)
      apply andb_prop in DT. destruct DT as [DD DT]. apply negb_true_iff in DT. rewrite (TN DD) in DT.
      assert (II : inits (f0 :: l0) <> []) by (destruct (inits (f0 :: l0)); [discriminate | discriminate]).
      assert (ND : forall d, h <> Def d).
      { intros d HD. pose proof (one_def x) as OD. rewrite FE, fl_app, FD in OD. change (F :: E) with ([F] ++ E) in OD.
        assert (FX : fl x [F] = [F]) by (apply (fl_one F); reflexivity).
        rewrite fl_app, FX in OD. rewrite !inits_app, !app_length in OD.
        assert (X : length (inits [F]) = 1%nat) by (unfold inits; cbn [flat_map F f_what]; rewrite HD; reflexivity).
        rewrite X in OD. destruct (inits (f0 :: l0)); [congruence|]. cbn [length] in OD. lia. }
      assert (IN0 : init = None) by (subst h; destruct init as [[d u]|]; [destruct (ND d eq_refl) | reflexivity]).
      rewrite IN0. eexists. split; [reflexivity|]. apply (SAME o N). rewrite FD. cbn [app objst]. rewrite W0.
      assert (IE : inits (f0 :: l0 ++ [F]) = inits (f0 :: l0)).
      { change (f0 :: l0 ++ [F]) with ((f0 :: l0) ++ [F]). rewrite inits_app. unfold inits at 2. cbn [flat_map F f_what].
        destruct h as [| |d]; [apply app_nil_r | apply app_nil_r | destruct (ND d eq_refl)]. }
      rewrite IE. split; [eauto|]. split; [exact AN|]. split; [exact IT|]. split.
      { change (f0 :: l0 ++ [F]) with ((f0 :: l0) ++ [F]). rewrite existsb_app. rewrite <- DF, DD. reflexivity. }
      split; [|exact TN]. intros _. destruct (WH DD) as (g & h1 & s1 & t1 & c1 & d1 & IG & K). exists g, h1, s1, t1, c1, d1. split; [|exact K].
      change (f0 :: l0 ++ [F]) with ((f0 :: l0) ++ [F]). apply in_app_iff. left. exact IG.
    + set (o1 := Obj (o_name o) (Some t') (o_align o) true sf (match init with Some _ => false | None => true end) tls (match init with Some (d, _) => Some d | None => o_init o end)).
      match goal with |- exists s1, ?m = Ok s1 /\ _ =>
        assert (EQ : exists f, m = Ok (change i f s) /\ f o = o1 /\ forall q, o_name (f q) = o_name q) end.
      { subst o1 sf t'. destruct c, init as [[d u]|]; try (eexists; split; [reflexivity|]; split; reflexivity). destruct (CE eq_refl eq_refl). }
      destruct EQ as (f & EQ & F1 & FN). rewrite EQ. eexists. split; [reflexivity|].
      assert (N1 : nth_error (globals (change i f s)) i = Some o1) by (cbn [change globals]; rewrite update_nth, Nat.eqb_refl, N; cbn [option_map]; congruence).
      assert (HX : h <> Ext) by (destruct h; [discriminate | discriminate | discriminate]).
      assert (NI : o_def o = true -> inits (f0 :: l0) = []).
      { intro DD. rewrite DD in DT. cbn [andb] in DT. apply negb_false_iff in DT. rewrite (TN DD) in DT. destruct (inits (f0 :: l0)); [reflexivity | discriminate]. }
      assert (NI' : inits (f0 :: l0) = []).
      { destruct (o_def o) eqn:DD; [auto|]. symmetry in DF. clear - DF. induction (f0 :: l0) as [|g l IH]; [reflexivity|]. cbn [existsb] in DF. apply orb_false_iff in DF.
        destruct DF as [D1 D2]. unfold inits in *. cbn [flat_map]. rewrite (IH D2). unfold defn in D1. destruct (f_what g) as [[| |d] ? ? ? ?|]; try discriminate; reflexivity. }
      apply (inv_set D r e s F) with (i := i) (o := o1); auto.
      * apply R_same; [eapply R_ext; [apply ext_change, FN | apply (i_R _ _ _ _ V)]|]. cbn [change scope]. rewrite FV, A. cbn [rel]. exists o1. split; [exact N1 | exact O].
      * apply (i_recs _ _ _ _ V).
      * intros j NJ. cbn [change globals]. rewrite update_nth. destruct (Nat.eqb_spec i j); [congruence | reflexivity].
      * cbn [F f_name]. rewrite FD. cbn [app objst]. rewrite W0. subst o1. cbn [o_ty o_align o_def o_static o_tent o_tls o_init].
        assert (IE : inits (f0 :: l0 ++ [F]) = match init with Some (d, _) => [d] | None => [] end).
        { change (f0 :: l0 ++ [F]) with ((f0 :: l0) ++ [F]). rewrite inits_app, NI'. unfold inits. cbn [flat_map F f_what app]. subst h. destruct init as [[d u]|]; [reflexivity | destruct c; reflexivity]. }
        rewrite IE. split; [eauto|]. split; [exact AN|]. split.
        { destruct init as [[d u]|]; [reflexivity|]. rewrite IT, NI'. reflexivity. }
        split.
        { change (f0 :: l0 ++ [F]) with ((f0 :: l0) ++ [F]). rewrite defn_app. unfold defn at 2. cbn [F f_what]. destruct h; [congruence | |]; rewrite orb_true_r; reflexivity. }
        split.
        -- intros _. exists F, h, sf, t', tls, (complete_now r t'). split; [change (f0 :: l0 ++ [F]) with ((f0 :: l0) ++ [F]); apply in_app_iff; right; left; reflexivity|].
           split; [reflexivity|]. split; [exact HX|]. split; [reflexivity|]. split; [|auto]. subst h. destruct init as [[d u]|]; [reflexivity | destruct c; try reflexivity; congruence].
        -- intros _. destruct init as [[d u]|]; reflexivity.
Qed.

Definition setdef (o : obj) : obj := Obj (o_name o) (o_ty o) (o_align o) true (o_static o) (o_tent o) (o_tls o) (o_init o).
Definition ffact (x : string) (st ex il b : bool) (e : env) : fact :=
  Fact x (if st then Internal else extern_link e x) true (visible e x) (FFun (il && negb ex) b).
Lemma fun_step : forall x st ex il b r e D E s, facts p = D ++ ffact x st ex il b e :: E -> inv D r e s ->
  exists i s1 o, func_prototype x st ex il s = Ok (i, s1) /\ nth_error (globals s1) i = Some o /\ (b = true -> o_def o = false) /\
    inv (D ++ [ffact x st ex il b e]) r (bind_name x (ELink (if st then Internal else extern_link e x) None) e) (if b then change i setdef s1 else s1).
Proof.
  intros x st ex il b r e D E s FE V. set (F := ffact x st ex il b e) in *.
  assert (INF : In F (facts p)) by (rewrite FE; apply in_app_iff; right; left; reflexivity).
  pose proof (i_sc _ _ _ _ V) as SC. pose proof (find_top s x SC) as FV.
  unfold func_prototype, find_func. rewrite SC. cbn [last].
  destruct (fl x D) as [|f0 l0] eqn:FD.
  - rewrite (i_none _ _ _ _ V _ FD).
    assert (RV : rel (globals s) x None (visible e x)).
    { rewrite <- (i_none _ _ _ _ V _ FD), <- FV. apply R_at, (i_R _ _ _ _ V). }
    assert (VE : visible e x = None) by (destruct (visible e x) as [[| |]|]; cbn [rel] in RV; try contradiction; reflexivity).
    set (o0 := Obj x None 1 false (st || (il && negb ex)) false false None).
    set (s1 := State (globals s ++ [o0]) [(x, VGlobal (length (globals s))) :: top s] (recs s)).
    exists (length (globals s)), s1, o0. split.
    { unfold new_gvar, change. cbn [globals scope recs]. rewrite SC. cbn [push_scope]. subst s1 o0. destruct (st || il && negb ex); [|reflexivity].
      rewrite update_end. reflexivity. }
    split; [apply nth_app_end|]. split; [reflexivity|].
    set (o1 := Obj x None 1 b (st || (il && negb ex)) false false None).
    assert (S2 : (if b then change (length (globals s)) setdef s1 else s1) = State (globals s ++ [o1]) [(x, VGlobal (length (globals s))) :: top s] (recs s)).
    { subst s1 o1. destruct b; [|reflexivity]. unfold change. cbn [globals scope recs]. rewrite update_end. reflexivity. }
    rewrite S2.
    apply (inv_set D r e s F) with (i := length (globals s)) (o := o1); auto; try (unfold top at 1); cbn [globals scope recs hd assoc F f_name].
    + assert (X : [(x, VGlobal (length (globals s))) :: top s] = push_scope x (VGlobal (length (globals s))) (scope s)) by (rewrite SC; reflexivity).
      rewrite X. apply R_push; [rewrite SC; discriminate | eapply R_ext; [apply ext_app | apply (i_R _ _ _ _ V)] |].
      cbn [rel]. exists o1. split; [apply nth_app_end | reflexivity].
    + apply (i_recs _ _ _ _ V).
    + intros y NY. cbn [ffact f_name F] in NY. subst F. cbn [ffact f_name] in NY. destruct (String.eqb_spec x y); [congruence | reflexivity].
    + cbn [ffact f_name]. rewrite String.eqb_refl. reflexivity.
    + apply nth_app_end.
    + intros j NJ. destruct (nth_error (globals s ++ [o1]) j) as [oj|] eqn:N.
      * apply nth_app_inv in N. destruct N as [N | [N _]]; congruence.
      * destruct (nth_error (globals s) j) as [oj|] eqn:N2; [|reflexivity]. apply (nth_app_l _ _ [o1]) in N2. congruence.
    + left. split; [apply (i_none _ _ _ _ V _ FD) |]. apply nth_error_None. lia.
    + subst F. cbn [ffact f_name]. rewrite FD. cbn [app objst ffact f_what f_link]. subst o1. cbn [o_ty o_def o_static].
      split; [reflexivity|]. split; [unfold bodies; cbn [filter ffact f_what]; destruct b; reflexivity|].
      unfold extern_link. rewrite VE. destruct st; reflexivity.
  - assert (NE : fl x D <> []) by (rewrite FD; discriminate).
    destruct (i_file _ _ _ _ V x NE) as (i & o & A & N & O & S). rewrite A, N.
    assert (INf : In f0 (facts p) /\ f_name f0 = x).
    { assert (In f0 (fl x D)) by (rewrite FD; left; reflexivity). apply in_fl in H. destruct H as (H & H1 & H2). split; [|auto]. rewrite FE. apply in_app_iff. auto. }
    destruct INf as (INf & NM).
    destruct (v_link _ VP f0 F INf INF) as [LK OB]; [exact NM|].
    rewrite FD in S. unfold objst in S. unfold is_obj in OB. destruct (f_what f0) as [|i0 b0] eqn:W0; [discriminate OB|].
    destruct S as (TY & DF & ST). rewrite TY, N.
    assert (OKS : negb (o_static o) && st = false).
    { destruct st; [|apply andb_false_r]. rewrite ST, LK. reflexivity. }
    rewrite OKS. exists i, s, o. split; [reflexivity|]. split; [exact N|].
    assert (ND : b = true -> bodies (f0 :: l0) = 0%nat).
    { intro BT. pose proof (one_def x) as OD. rewrite FE, fl_app, FD in OD. change (F :: E) with ([F] ++ E) in OD.
      assert (FX : fl x [F] = [F]) by (apply (fl_one F); reflexivity). rewrite fl_app, FX in OD. rewrite !bodies_app in OD.
      assert (X : bodies [F] = 1%nat) by (unfold bodies; subst F; cbn [filter ffact f_what]; rewrite BT; reflexivity).
      rewrite X in OD. lia. }
    split. { intro BT. rewrite DF, (ND BT). reflexivity. }
    set (o1 := if b then setdef o else o).
    assert (N1 : nth_error (globals (if b then change i setdef s else s)) i = Some o1).
    { subst o1. destruct b; [|exact N]. cbn [change globals]. rewrite update_nth, Nat.eqb_refl, N. reflexivity. }
    assert (T1 : scope (if b then change i setdef s else s) = scope s) by (destruct b; reflexivity).
    assert (T2 : top (if b then change i setdef s else s) = top s) by (destruct b; reflexivity).
    assert (O1 : o_name o1 = x) by (subst o1; destruct b; exact O).
    apply (inv_set D r e s F) with (i := i) (o := o1); auto; rewrite ?T1, ?T2; auto.
    + apply R_same; [eapply R_ext; [|apply (i_R _ _ _ _ V)] |].
      * destruct b; [apply ext_change; reflexivity | apply ext_refl].
      * rewrite FV, A. cbn [rel]. eauto.
    + destruct b; apply (i_recs _ _ _ _ V).
    + intros j NJ. destruct b; [|reflexivity]. cbn [change globals]. rewrite update_nth. destruct (Nat.eqb_spec i j); [congruence | reflexivity].
    + subst F. cbn [ffact f_name]. rewrite FD. cbn [app objst]. rewrite W0. change (f0 :: l0 ++ [ffact x st ex il b e]) with ((f0 :: l0) ++ [ffact x st ex il b e]).
      rewrite bodies_app. subst o1. destruct b.
      * cbn [setdef o_ty o_def o_static]. split; [exact TY|]. split; [|exact ST]. unfold bodies at 2. cbn [filter ffact f_what length].
        rewrite Nat.add_1_r. reflexivity.
      * split; [exact TY|]. split; [|exact ST]. rewrite DF. unfold bodies at 3. cbn [filter ffact f_what length]. rewrite Nat.add_0_r. reflexivity.
Qed.

Lemma step : forall i r e r1 e1 f1 u1 D E U s, facts p = D ++ f1 ++ E -> (forall u, In u u1 -> In u (uses p)) -> In i p ->
  item_facts i r e = (r1, e1, f1, u1) -> (forall j z a, i = IRec j z a -> ~ In j (map fst r)) -> U = u1 -> inv D r e s ->
  exists s1 rr, unit_item i s = Ok (s1, rr) /\ inv (D ++ f1) r1 e1 s1 /\ Forall2 agree rr u1.
Proof.
  intros i r e r1 e1 f1 u1 D E U s FE UE IN IF NR _ V. destruct i as [j z a|x c tls t init|x st ex il body].
  - cbn [item_facts] in IF. injection IF as <- <- <- <-. cbn [unit_item]. eexists _, _. split; [reflexivity|]. split; [|constructor].
    rewrite app_nil_r. specialize (NR _ _ _ eq_refl). destruct V as [V1 V2 V3 V4 V5 V6]. constructor; try assumption.
    + cbn [recs]. rewrite V3. reflexivity.
    + intros x H. destruct (V5 x H) as (i & o & A & N & O & S). exists i, o. split; [exact A|]. split; [exact N|]. split; [exact O|].
      unfold objst in *. destruct (fl x D) as [|f l]; [exact S|]. destruct (f_what f) as [h0 s0 t0 c0 d0|]; [|exact S].
      destruct S as (S1 & S2 & S3). split; [exact S1|]. split; [|exact S3]. intro DT. destruct (S2 DT) as [C Q].
      destruct (complete_new _ _ (z, a) _ NR C) as [C' Q']. split; [exact C' | congruence].
  - destruct (var_step x c tls t init r e D E s) as (s1 & DE & V1); auto.
    { rewrite IF. exact FE. }
    rewrite IF in V1. cbn [fst snd] in V1. cbn [unit_item]. rewrite DE. cbn [bind]. cbn [item_facts] in IF. injection IF as <- <- <- <-.
    eexists _, _. split; [reflexivity|]. split; [exact V1 | constructor].
  - cbn [item_facts] in IF. cbn [unit_item]. destruct body as [l|].
    + destruct (block (complete_now r) l ([] :: bind_name x (ELink (if st then Internal else extern_link e x) None) e)) as [[e2 f2] u2] eqn:B.
      injection IF as <- <- <- <-.
      destruct (fun_step x st ex il true r e D (f2 ++ E) s) as (i & s1 & o & PR & N & DF & V1); auto.
      cbn match in V1. rewrite PR. cbn [bind fst snd]. unfold func_definition. rewrite N, (DF eq_refl).
      fold setdef. change (fun o => Obj (o_name o) (o_ty o) (o_align o) true (o_static o) (o_tent o) (o_tls o) (o_init o)) with setdef.
      pose proof (block_declares _ _ _ _ _ _ B) as BD.
      destruct (block_ok (complete_now r) l (enter (change i setdef s1)) _ e2 f2 u2 (R_enter _ _ _ (i_R _ _ _ _ V1))) as (s2 & rr & P2 & R2 & F2 & A2).
      * discriminate.
      * cbn [enter scope tl]. rewrite (i_sc _ _ _ _ V1). discriminate.
      * exact B.
      * apply Forall_forall. intros g G. apply (h_block _ HP).
        { rewrite FE. apply in_app_iff. right. apply in_app_iff. left. right. exact G. }
        { rewrite Forall_forall in BD. apply (BD _ G). }
      * apply Forall_forall. intros [[k y] u] G. unfold oku. cbn [snd]. apply (v_uses _ VP k y), UE, G.
      * rewrite P2. cbn [bind fst snd]. eexists _, _. split; [reflexivity|]. split; [|exact A2].
        change (ffact x st ex il true e :: f2) with ([ffact x st ex il true e] ++ f2).
        replace (D ++ Fact x (if st then Internal else extern_link e x) true (visible e x) (FFun (il && negb ex) true) :: f2)
          with ((D ++ [ffact x st ex il true e]) ++ f2) by (rewrite <- app_assoc; reflexivity).
        eapply inv_block; [exact V1 | exact F2 |]. eapply Forall_impl; [|exact BD]. intros g G. apply G.
    + injection IF as <- <- <- <-.
      destruct (fun_step x st ex il false r e D E s) as (i & s1 & o & PR & N & DF & V1); auto.
      rewrite PR. cbn [bind fst snd]. eexists _, _. split; [reflexivity|]. split; [exact V1 | constructor].
Qed.
Lemma records_suffix : forall q r e r2 f2 u2, unit_facts q r e = (r2, f2, u2) -> exists l, r2 = l ++ r.
Proof.
  induction q as [|i q IH]; intros r e r2 f2 u2 H; cbn [unit_facts] in H.
  - injection H as <- <- <-. exists []. reflexivity.
  - destruct (item_facts i r e) as [[[r1 e1] f1] u1] eqn:I1. destruct (unit_facts q r1 e1) as [[r3 f3] u3] eqn:U. injection H as <- <- <-.
    destruct (IH _ _ _ _ _ U) as (l & ->). destruct i as [j z a|x c tls t init|x st ex il body]; cbn [item_facts] in I1.
    + injection I1 as <- <- <- <-. exists (l ++ [(j, (z, a))]). rewrite <- app_assoc. reflexivity.
    + injection I1 as <- <- <- <-. eauto.
    + destruct body as [b|]; [destruct (block _ b _) as [[? ?] ?]|]; injection I1 as <- <- <- <-; eauto.
Qed.
Lemma run : forall q r e r2 f2 u2 D s, unit_facts q r e = (r2, f2, u2) -> r2 = records p -> facts p = D ++ f2 -> (forall u, In u u2 -> In u (uses p)) ->
  (forall i, In i q -> In i p) -> inv D r e s -> exists s2 rr e2, unit_items q s = Ok (s2, rr) /\ inv (facts p) (records p) e2 s2 /\ Forall2 agree rr u2.
Proof.
  induction q as [|i q IH]; intros r e r2 f2 u2 D s H RE FE UE IN V; cbn [unit_facts unit_items] in *.
  - injection H as <- <- <-. rewrite app_nil_r in FE. rewrite <- RE, FE. exists s, [], e. split; [reflexivity|]. split; [exact V | constructor].
  - destruct (item_facts i r e) as [[[r1 e1] f1] u1] eqn:I1. destruct (unit_facts q r1 e1) as [[r3 f3] u3] eqn:U. injection H as <- <- <-.
    destruct (step i r e r1 e1 f1 u1 D f3 u1 s) as (s1 & rr & P1 & V1 & A1); auto.
    + intros u G. apply UE, in_app_iff. auto.
    + apply IN. left. reflexivity.
    + intros j z a ->. cbn [item_facts] in I1. injection I1 as <- <- <- <-. destruct (records_suffix _ _ _ _ _ _ U) as (l & EL).
      pose proof (proj1 (v_recs _ VP)) as ND. rewrite <- RE, EL, map_app in ND. cbn [map fst] in ND. apply NoDup_remove_2 in ND.
      intro K. apply ND, in_app_iff. auto.
    + destruct (IH r1 e1 r3 f3 u3 (D ++ f1) s1 U RE) as (s2 & rr2 & e2 & P2 & V2 & A2); auto.
      * rewrite <- app_assoc. exact FE.
      * intros u G. apply UE, in_app_iff. auto.
      * intros y G. apply IN. right. exact G.
      * rewrite P1. cbn [bind fst snd]. rewrite P2. cbn [bind fst snd]. eexists _, _, _. split; [reflexivity|]. split; [exact V2 | apply Forall2_app; auto].
Qed.
Lemma parsed : exists s rr e, parse_unit p = Ok (s, rr) /\ inv (facts p) (records p) e s /\ Forall2 agree rr (uses p).
Proof.
  unfold parse_unit. destruct (unit_facts p [] [[]]) as [[r f] u] eqn:U.
  destruct (run p [] [[]] r f u [] (State [] [[]] []) U) as (s & rr & e & P & V & A).
  - unfold records. rewrite U. reflexivity.
  - unfold facts. rewrite U. reflexivity.
  - unfold uses. rewrite U. auto.
  - auto.
  - constructor; try reflexivity.
    + cbn [R globals scope]. split; [|exact Logic.I]. intro x. exact Logic.I.
    + intros x H. destruct (H eq_refl).
    + intros i o N. destruct i; discriminate.
  - exists s, rr, e. split; [exact P|]. split; [exact V|]. unfold uses. rewrite U. exact A.
Qed.
End Unit.
