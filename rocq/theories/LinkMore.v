(** Proofs of C60, continued: the symbols defined; definitions are not repeated. *)
From Coq Require Import Ascii String ZArith List Bool Lia.
From Verif Require Import LinkSpec LinkModel LinkProofs LinkMain.
Import ListNotations.
Local Open Scope string_scope.
Local Open Scope Z_scope.
Local Open Scope list_scope.

(** * Facts *)
Definition kind (f : fact) : Prop :=
  (f_file f = true \/ declares f) /\ match f_what f with FObj h st _ _ _ => st = true -> f_link f = Internal | _ => True end.
Lemma declares_kind : forall f, declares f -> (match f_what f with FObj _ st _ _ _ => st = false | _ => True end) -> kind f.
Proof. intros f D S. split; [auto|]. destruct (f_what f); [congruence | exact Logic.I]. Qed.
Lemma one_static : forall done b e e' f u, one done b e = (e', f, u) -> Forall (fun f => match f_what f with FObj _ st _ _ _ => st = false | _ => True end) f.
Proof.
  intro done. apply (bitem_rect' (fun b => forall e e' f u, one done b e = (e', f, u) -> Forall (fun f => match f_what f with FObj _ st _ _ _ => st = false | _ => True end) f)).
  - intros m FA e e' f u H. rewrite one_block in H. destruct (one_go done m ([] :: e)) as [[e1 f1] u1] eqn:G. injection H as <- <- <-.
    revert e1 f1 u1 G. generalize ([] :: e). induction m as [|b m IH]; intros e0 e1 f1 u1 G; cbn [one_go] in G.
    + injection G as <- <- <-. constructor.
    + inversion FA; subst. destruct (one done b e0) as [[e2 f2] u2] eqn:O. destruct (one_go done m e2) as [[e3 f3] u3] eqn:G3.
      injection G as <- <- <-. apply Forall_app. split; [eapply H1, O | eapply IH, G3; assumption].
  - intros b NB e e' f u H. destruct b; try (destruct (NB l eq_refl)); cbn [one] in H; injection H as <- <- <-; repeat constructor.
Qed.
Lemma block_kind : forall done l e e' f u, block done l e = (e', f, u) -> Forall kind f.
Proof.
  induction l as [|b l IH]; intros e e' f u H; cbn [block] in H.
  - injection H as <- <- <-. constructor.
  - destruct (one done b e) as [[e1 f1] u1] eqn:O. destruct (block done l e1) as [[e2 f2] u2] eqn:B. injection H as <- <- <-.
    apply Forall_app. split; [|eapply IH, B]. pose proof (one_declares _ _ _ _ _ _ O) as H1. pose proof (one_static _ _ _ _ _ _ O) as H2.
    rewrite Forall_forall in *. intros g G. apply declares_kind; [apply (H1 _ G) | apply (H2 _ G)].
Qed.
Lemma facts_kind : forall q r e r2 f2 u2, unit_facts q r e = (r2, f2, u2) -> Forall kind f2.
Proof.
  induction q as [|i q IH]; intros r e r2 f2 u2 H; cbn [unit_facts] in H.
  - injection H as <- <- <-. constructor.
  - destruct (item_facts i r e) as [[[r1 e1] f1] u1] eqn:I1. destruct (unit_facts q r1 e1) as [[r3 f3] u3] eqn:U. injection H as <- <- <-.
    apply Forall_app. split; [|eapply IH, U]. destruct i as [j z a|x c tls t init|x st ex il body]; cbn [item_facts] in I1.
    + injection I1 as <- <- <- <-. constructor.
    + injection I1 as <- <- <- <-. constructor; [|constructor]. split; [auto|]. cbn [f_what f_link]. destruct c; intro; congruence.
    + destruct body as [b|]; [destruct (block _ b _) as [[e2 f2] u2] eqn:B|]; injection I1 as <- <- <- <-.
      * constructor; [split; [auto | exact Logic.I] | eapply block_kind, B].
      * constructor; [split; [auto | exact Logic.I] | constructor].
Qed.
Lemma unit_kind : forall p f, In f (facts p) -> kind f.
Proof.
  intros p f. unfold facts. destruct (unit_facts p [] [[]]) as [[r l] u] eqn:U. pose proof (facts_kind _ _ _ _ _ _ U) as H. rewrite Forall_forall in H. apply H.
Qed.
(** What is initialized has a complete type. *)
Lemma def_closed : forall q r e r2 f2 u2 x st t tls d dn, (forall x s c t d u, In (IVar x s c t (Some (d, u))) q -> open u = false) ->
  unit_facts q r e = (r2, f2, u2) -> forall n fi pv, In (Fact x n fi pv (FObj (Def d) st t tls dn)) f2 -> open t = false.
Proof.
  induction q as [|i q IH]; intros r e r2 f2 u2 x st t tls d dn HQ H n fi pv IN; cbn [unit_facts] in H.
  - injection H as <- <- <-. destruct IN.
  - destruct (item_facts i r e) as [[[r1 e1] f1] u1] eqn:I1. destruct (unit_facts q r1 e1) as [[r3 f3] u3] eqn:U. injection H as <- <- <-.
    apply in_app_iff in IN. destruct IN as [IN | IN].
    2:{ eapply IH; [|exact U | exact IN]. intros. eapply HQ. right. eassumption. }
    destruct i as [j z a|y c tls' t' init|y st' ex il body]; cbn [item_facts] in I1.
    + injection I1 as <- <- <- <-. destruct IN.
    + injection I1 as <- <- <- <-. destruct IN as [IN | []]. destruct init as [[d' u]|]; [|destruct c; discriminate].
      injection IN as -> _ _ _ _ _ -> _ _. eapply HQ. left. reflexivity.
    + destruct body as [b|]; [destruct (block _ b _) as [[e2 f2] u2] eqn:B|]; injection I1 as <- <- <- <-.
      * destruct IN as [IN | IN]; [discriminate|]. pose proof (block_declares _ _ _ _ _ _ B) as H. rewrite Forall_forall in H. destruct (H _ IN) as [_ K]. discriminate K.
      * destruct IN as [IN | []]. discriminate.
Qed.
Lemma filed_inits : forall l, (forall f, In f l -> kind f) -> inits (filed l) = inits l.
Proof.
  induction l as [|f l IH]; intro H; [reflexivity|]. unfold filed. cbn [filter]. fold (filed l).
  assert (IHl : inits (filed l) = inits l) by (apply IH; intros; apply H; right; assumption).
  destruct (f_file f) eqn:F.
  - unfold inits in *. cbn [flat_map]. rewrite IHl. reflexivity.
  - rewrite IHl. unfold inits. cbn [flat_map]. destruct (H f (or_introl eq_refl)) as [[K | [_ K]] _]; [congruence|].
    destruct (f_what f) as [h ? ? ? ?|]; [subst h|]; reflexivity.
Qed.

(** * Types *)
Lemma comp_is : forall l u t, (forall a b, In a (u :: l) -> In b (u :: l) -> compat a b) -> In t (u :: l) ->
  (open t = true -> forall a, In a (u :: l) -> open a = true) -> composite_all l u = t.
Proof.
  induction l as [|v l IH]; intros u t C IN O; cbn [composite_all].
  - destruct IN as [-> | []]. reflexivity.
  - assert (CUV : compat u v) by (apply C; [left; reflexivity | right; left; reflexivity]).
    assert (W : composite u v = u \/ composite u v = v) by (destruct u as [| |[n|] e]; cbn [composite]; auto).
    assert (W' : u = t \/ v = t -> composite u v = t \/ In t l \/ True) by auto.
    apply IH.
    + intros a b HA HB. apply C; [destruct HA as [<- | HA]; [destruct W as [-> | ->]; cbn; auto | cbn; auto] | destruct HB as [<- | HB]; [destruct W as [-> | ->]; cbn; auto | cbn; auto]].
    + destruct IN as [-> | [-> | IN]]; [| |right; exact IN].
      * left. destruct t as [| |[n|] e]; try reflexivity. cbn [composite]. pose proof (O eq_refl v (or_intror (or_introl eq_refl))) as OV.
        inversion CUV; subst; [reflexivity|]. destruct n; [discriminate OV | reflexivity].
      * left. destruct u as [| |[n|] e]; cbn [composite]; try (inversion CUV; subst; reflexivity); try reflexivity.
        inversion CUV as [|m n0 e0 D]; subst; [reflexivity|]. destruct D as [D | [D | D]]; [rewrite D; reflexivity | discriminate|].
        subst. pose proof (O eq_refl (Arr (Some n) e) (or_introl eq_refl)). discriminate.
    + intros OT a [<- | HA]; [destruct W as [-> | ->]; apply O; cbn; auto | apply O; cbn; auto].
Qed.
Lemma types_in : forall l t, In t (types l) <-> exists f h s c d, In f l /\ f_what f = FObj h s t c d.
Proof.
  intros l t. unfold types. rewrite in_flat_map. split.
  - intros (f & IN & T). destruct (f_what f) as [h s t0 c d|] eqn:W; [|destruct T]. destruct T as [-> | []]. exists f, h, s, c, d. auto.
  - intros (f & h & s & c & d & IN & W). exists f. rewrite W. split; [exact IN | left; reflexivity].
Qed.
Lemma layout_nonneg : forall r t s a, (forall i s a, In (i, (s, a)) r -> 0 <= s) -> sane t = true -> layout r t = Some (s, a) -> 0 <= s.
Proof.
  induction t as [s0 a0|i|n t IH]; intros s a HR S L; cbn [layout sane] in *.
  - injection L as <- <-. apply Z.leb_le in S. exact S.
  - apply rec_of_in in L. eapply HR, L.
  - destruct n as [n|]; [|discriminate]. apply andb_prop in S. destruct S as [N S]. apply Z.leb_le in N.
    destruct (layout r t) as [[s1 a1]|]; [|discriminate]. injection L as <- <-. pose proof (IH _ _ HR S eq_refl). nia.
Qed.

Section Unit.
Variable p : list item.
Hypothesis VP : valid p.
Hypothesis HP : handled p.
Variables (e : env) (s : state).
Hypothesis V : inv (facts p) (records p) e s.
Definition symbol (o : obj) : sym := Sym (o_name o) (negb (o_static o)) (match o_ty o with None => CFun | Some t => emit_data (recs s) o t end).
Lemma obj_sym : forall x f0 l0 o h0 s0 t0 c0 d0, filed (about x p) = f0 :: l0 -> f_what f0 = FObj h0 s0 t0 c0 d0 -> o_name o = x ->
  objst (records p) (f0 :: l0) o -> o_def o = true ->
  exists g h st t c d z a, In g (facts p) /\ f_name g = x /\ f_what g = FObj h st t c d /\ h <> Ext /\
    layout (records p) (whole (composite_all (types l0) t0)) = Some (z, a) /\
    symbol o = Sym x (external (f_link g)) (CObj z (abi_align t0 z a) c (hd_error (inits (about x p)))).
Proof.
  intros x f0 l0 o h0 s0 t0 c0 d0 FD W0 O S DF. cbn [objst] in S. rewrite W0 in S. destruct S as (_ & AL & IT & _ & WH & _).
  destruct (WH DF) as (g & h & st & t & c & d & ING & WG & NX & TY & TN & ST & TL).
  assert (ALL : forall f, In f (f0 :: l0) -> In f (facts p) /\ f_name f = x /\ f_file f = true).
  { intros f H. rewrite <- FD in H. apply in_fl. exact H. }
  destruct (ALL g ING) as (GF & GN & GFI).
  pose proof (v_whole _ VP _ _ _ _ _ _ GF WG NX) as LW. destruct (layout (records p) (elem t)) as [[sz a]|] eqn:LE; [|congruence].
  pose proof (v_sane _ VP _ _ _ _ _ _ GF WG) as SN.
  assert (SE : sane (elem t) = true) by (destruct t; cbn [elem sane] in *; auto; apply andb_prop in SN; apply SN).
  pose proof (layout_nonneg _ _ _ _ (proj2 (v_recs _ VP)) SE LE) as SZ.
  assert (HT : types (f0 :: l0) = t0 :: types l0) by (unfold types; cbn [flat_map]; rewrite W0; reflexivity).
  assert (CA : composite_all (types l0) t0 = t).
  { apply comp_is; rewrite <- HT.
    - intros a1 b1 HA HB. apply types_in in HA, HB. destruct HA as (fa & ? & ? & ? & ? & FA & WA), HB as (fb & ? & ? & ? & ? & FB & WB).
      destruct (ALL _ FA) as (? & ? & ?), (ALL _ FB) as (? & ? & ?). eapply (v_types _ VP fa fb); eauto. congruence.
    - apply types_in. eauto 10.
    - intros OT b HB. apply types_in in HB. destruct HB as (fb & ? & ? & ? & ? & FB & WB). destruct (ALL _ FB) as (? & ? & ?).
      eapply (h_open _ HP g fb); eauto. congruence. }
  assert (C0 : compat t0 t).
  { destruct (ALL f0 (or_introl eq_refl)) as (? & ? & ?). eapply (v_types _ VP f0 g); eauto. congruence. }
  assert (D0 : d0 = true) by (eapply (h_first _ HP); eauto).
  destruct (AL D0) as [_ A0].
  assert (A1 : o_align o = a).
  { rewrite A0, talign_elem. replace (elem t0) with (elem t) by (inversion C0; reflexivity). eapply layout_align, LE. }
  assert (LK : negb st = external (f_link g)).
  { destruct (f_link g) eqn:L; cbn [external].
    - rewrite (h_static _ HP _ _ _ _ _ _ GF WG NX L). reflexivity.
    - destruct (unit_kind _ _ GF) as [_ K]. rewrite WG in K. destruct st; [rewrite K in L by reflexivity; discriminate | reflexivity]. }
  assert (OP : open t = true -> o_tent o = true).
  { intro OT. rewrite TN. destruct h as [| |dd]; [congruence | reflexivity|]. exfalso. revert GF. unfold facts. destruct (unit_facts p [] [[]]) as [[r2 f2] u2] eqn:U. cbn [fst snd]. intro GF.
    destruct g as [gn gl gf gp gw]. cbn [f_what] in WG. subst gw. rewrite (def_closed p [] [[]] r2 f2 u2 gn st t c dd d) with (2 := U) (3 := GF) in OT; [discriminate|].
    intros. eapply (v_init _ VP). eassumption. }
  assert (LL : exists z, layout (records p) (whole t) = Some (z, a) /\ emit_data (records p) o t = CObj z (abi_align t z a) (o_tls o) (o_init o)).
  { destruct (layout_align _ _ _ _ LE) as [LA LS].
    destruct t as [b1 b2|ri|[n|] u]; cbn [whole elem] in *.
    - exists sz. rewrite LE. split; [reflexivity|]. unfold emit_data. rewrite LS, A1. reflexivity.
    - exists sz. rewrite LE. split; [reflexivity|]. unfold emit_data. rewrite LS, A1. reflexivity.
    - exists (n * sz). cbn [layout]. rewrite LE. split; [reflexivity|]. unfold emit_data. cbn [tsize]. rewrite LS, A1.
      cbn [sane] in SN. apply andb_prop in SN. destruct SN as [SN _]. apply Z.leb_le in SN.
      replace (sz * n <? 0) with false by (symmetry; apply Z.ltb_ge; nia). cbn [andb abi_align]. rewrite (Z.mul_comm sz n). reflexivity.
    - exists (1 * sz). cbn [layout]. rewrite LE. split; [reflexivity|]. unfold emit_data. cbn [tsize elem]. rewrite LS, A1, (OP eq_refl).
      cbn [andb]. rewrite andb_true_r. replace (1 * sz) with sz by lia. destruct (Z.ltb_spec (sz * -1) 0).
      + reflexivity.
      + assert (sz = 0) as -> by lia. reflexivity. }
  destruct LL as (z & L & EM). exists g, h, st, t, c, d, z, a. rewrite CA. repeat (split; [assumption|]).
  unfold symbol. rewrite TY, (i_recs _ _ _ _ V), EM, O, ST, LK, TL, IT.
  assert (AA : abi_align t0 z a = abi_align t z a) by (inversion C0; reflexivity).
  rewrite AA, <- FD. rewrite filed_inits; [reflexivity|]. intros f F. unfold about in F. apply filter_In in F. apply (unit_kind p), F.
Qed.
Lemma fun_sym : forall x f0 l0 o i0 b0, filed (about x p) = f0 :: l0 -> f_what f0 = FFun i0 b0 -> o_name o = x -> objst (records p) (f0 :: l0) o ->
  forall g, In g (facts p) -> f_name g = x ->
  symbol o = Sym x (external (f_link g) && existsb (fun g => match f_what g with FFun i _ => negb i | _ => false end) (filed (about x p))) CFun.
Proof.
  intros x f0 l0 o i0 b0 FD W0 O S g GF GN. cbn [objst] in S. rewrite W0 in S. destruct S as (TY & DF & ST).
  unfold symbol. rewrite TY, O, ST.
  assert (ALL : forall f, In f (f0 :: l0) -> In f (facts p) /\ f_name f = x /\ f_file f = true).
  { intros f H. rewrite <- FD in H. apply in_fl. exact H. }
  destruct (ALL f0 (or_introl eq_refl)) as (F0 & N0 & _). destruct (v_link _ VP f0 g F0 GF) as [LK _]; [congruence|]. rewrite LK.
  destruct (f_link g) eqn:LG; cbn [external negb andb orb]; [reflexivity|]. f_equal. rewrite FD. cbn [existsb]. rewrite W0.
  destruct i0; [|reflexivity]. cbn [negb orb]. symmetry. apply Bool.not_true_iff_false. intro EX. apply existsb_exists in EX.
  destruct EX as (k & KI & KN). destruct (f_what k) as [|j c] eqn:WK; [discriminate|]. apply negb_true_iff in KN.
  pose proof (h_inline _ HP x f0 l0 true b0 k j c FD W0 LK KI WK KN). discriminate.
Qed.
Lemma emit_in : forall y, In y (emit s) <-> exists i o, nth_error (globals s) i = Some o /\ o_def o = true /\ y = symbol o.
Proof.
  intro y. unfold emit. rewrite in_flat_map. split.
  - intros (o & IN & H). apply In_nth_error in IN. destruct IN as (i & N). destruct (o_def o) eqn:D; [|destruct H]. destruct H as [<- | []]. exists i, o. auto.
  - intros (i & o & N & D & ->). exists o. split; [eapply nth_error_In, N|]. rewrite D. left. reflexivity.
Qed.
Lemma place : forall i o, nth_error (globals s) i = Some o -> o_def o = true ->
  exists f0 l0, filed (about (o_name o) p) = f0 :: l0 /\ objst (records p) (f0 :: l0) o.
Proof.
  intros i o N D. pose proof (i_def _ _ _ _ V _ _ N D) as A.
  assert (NE : fl (o_name o) (facts p) <> []). { intro Q. rewrite (i_none _ _ _ _ V _ Q) in A. discriminate. }
  destruct (i_file _ _ _ _ V _ NE) as (j & o' & A' & N' & _ & S). rewrite A in A'. injection A' as <-. rewrite N in N'. injection N' as <-.
  change (filed (about (o_name o) p)) with (fl (o_name o) (facts p)). destruct (fl (o_name o) (facts p)) as [|f0 l0]; [congruence|]. eauto.
Qed.
Lemma place_of : forall f, In f (facts p) -> f_file f = true -> exists i o f0 l0, nth_error (globals s) i = Some o /\ o_name o = f_name f /\
  filed (about (f_name f) p) = f0 :: l0 /\ In f (f0 :: l0) /\ objst (records p) (f0 :: l0) o.
Proof.
  intros f IN FI. assert (INF : In f (fl (f_name f) (facts p))) by (apply in_fl; auto).
  assert (NE : fl (f_name f) (facts p) <> []). { intro Q. rewrite Q in INF. destruct INF. }
  destruct (i_file _ _ _ _ V _ NE) as (j & o' & A' & N' & O & S). change (filed (about (f_name f) p)) with (fl (f_name f) (facts p)).
  destruct (fl (f_name f) (facts p)) as [|f0 l0]; [congruence|]. exists j, o', f0, l0. auto.
Qed.
Lemma symbols : forall y, In y (emit s) <-> defines p y.
Proof.
  intro y. rewrite emit_in. split.
  - intros (i & o & N & D & ->). destruct (place i o N D) as (f0 & l0 & FD & S). destruct (f_what f0) as [h0 s0 t0 c0 d0|i0 b0] eqn:W0.
    + destruct (obj_sym (o_name o) f0 l0 o h0 s0 t0 c0 d0) as (g & h & st & t & c & d & z & a & GF & GN & GW & NX & L & ->); auto.
      rewrite <- GN. eapply d_obj with (l := types l0) (u := t0) (f := g); eauto. rewrite GN, FD. unfold types. cbn [flat_map]. rewrite W0. reflexivity.
    + pose proof S as S'. cbn [objst] in S'. rewrite W0 in S'. destruct S' as (_ & DF & _). rewrite D in DF.
      assert (EX : exists g i, In g (f0 :: l0) /\ f_what g = FFun i true).
      { clear - DF. unfold bodies in DF. destruct (filter (fun f => match f_what f with FFun _ b => b | _ => false end) (f0 :: l0)) as [|g m] eqn:F; [discriminate|].
        assert (IN : In g (filter (fun f => match f_what f with FFun _ b => b | _ => false end) (f0 :: l0))) by (rewrite F; left; reflexivity).
        apply filter_In in IN. destruct IN as [IN W]. exists g. destruct (f_what g) as [|i b]; [discriminate|]. subst b. eauto. }
      destruct EX as (g & i1 & GI & GW).
      assert (GF : In g (facts p) /\ f_name g = o_name o). { rewrite <- FD in GI. apply in_fl in GI. tauto. }
      destruct GF as [GF GN]. rewrite (fun_sym (o_name o) f0 l0 o i0 b0 FD W0 eq_refl S g GF GN). rewrite <- GN. eapply d_fun; eauto.
  - intro H. destruct H as [f h st t tls dn u l z a IN W NX TY L | f i IN W].
    + assert (FI : f_file f = true). { destruct (unit_kind _ _ IN) as [[K | [_ K]] _]; [exact K|]. rewrite W in K. contradiction. }
      destruct (place_of f IN FI) as (i & o & f0 & l0 & N & O & FD & INF & S).
      assert (F0 : In f0 (facts p) /\ f_name f0 = f_name f). { assert (In f0 (fl (f_name f) (facts p))) by (unfold fl; change (sel (f_name f) (facts p)) with (about (f_name f) p); rewrite FD; left; reflexivity). apply in_fl in H. tauto. }
      destruct F0 as [F0 N0]. destruct (v_link _ VP f0 f F0 IN N0) as [LK OB]. unfold is_obj in OB. rewrite W in OB.
      destruct (f_what f0) as [h0 s0 t0 c0 d0|] eqn:W0; [|discriminate].
      assert (D : o_def o = true).
      { pose proof S as S'. cbn [objst] in S'. rewrite W0 in S'. destruct S' as (_ & _ & _ & DF & _). rewrite DF. apply existsb_exists. exists f. split; [exact INF|].
        unfold defn. rewrite W. destruct h; [congruence | reflexivity | reflexivity]. }
      exists i, o. split; [exact N|]. split; [exact D|].
      destruct (obj_sym (f_name f) f0 l0 o h0 s0 t0 c0 d0) as (g & h' & st' & t' & c' & d' & z' & a' & GF & GN & GW & NX' & L' & ->); auto.
      rewrite FD in TY. unfold types in TY. cbn [flat_map] in TY. rewrite W0 in TY. injection TY as <- <-. fold (types l0) in L. rewrite L in L'. injection L' as <- <-.
      destruct (v_link _ VP g f GF IN GN) as [-> _]. destruct (v_types _ VP g f _ _ _ _ _ _ _ _ _ _ GF IN GN GW W) as [_ ->]. reflexivity.
    + assert (FI : f_file f = true). { destruct (unit_kind _ _ IN) as [[K | [_ K]] _]; [exact K|]. rewrite W in K. discriminate. }
      destruct (place_of f IN FI) as (j & o & f0 & l0 & N & O & FD & INF & S).
      assert (F0 : In f0 (facts p) /\ f_name f0 = f_name f). { assert (In f0 (fl (f_name f) (facts p))) by (unfold fl; change (sel (f_name f) (facts p)) with (about (f_name f) p); rewrite FD; left; reflexivity). apply in_fl in H. tauto. }
      destruct F0 as [F0 N0]. destruct (v_link _ VP f0 f F0 IN N0) as [LK OB]. unfold is_obj in OB. rewrite W in OB.
      destruct (f_what f0) as [|i0 b0] eqn:W0; [discriminate|].
      assert (D : o_def o = true).
      { pose proof S as S'. cbn [objst] in S'. rewrite W0 in S'. destruct S' as (_ & DF & _). rewrite DF. unfold bodies.
        destruct (filter (fun f => match f_what f with FFun _ b => b | _ => false end) (f0 :: l0)) as [|g m] eqn:F; [|reflexivity].
        assert (IN' : In f (filter (fun f => match f_what f with FFun _ b => b | _ => false end) (f0 :: l0))) by (apply filter_In; rewrite W; auto). rewrite F in IN'. destruct IN'. }
      exists j, o. split; [exact N|]. split; [exact D|]. symmetry. apply (fun_sym (f_name f) f0 l0 o i0 b0 FD W0 O S f IN eq_refl).
Qed.
Lemma names_once : NoDup (map s_name (emit s)).
Proof.
  assert (U : forall i j o o', nth_error (globals s) i = Some o -> nth_error (globals s) j = Some o' -> o_def o = true -> o_def o' = true -> o_name o = o_name o' -> i = j).
  { intros i j o o' N N' D D' E. pose proof (i_def _ _ _ _ V _ _ N D) as A. pose proof (i_def _ _ _ _ V _ _ N' D') as A'. rewrite E in A. congruence. }
  unfold emit. revert U. generalize (globals s) as l. induction l as [|o l IH]; intro U; [constructor|].
  cbn [flat_map]. rewrite map_app.
  assert (IHl : NoDup (map s_name (flat_map (fun o => if o_def o then [Sym (o_name o) (negb (o_static o)) (match o_ty o with None => CFun | Some t => emit_data (recs s) o t end)] else []) l))).
  { apply IH. intros i j o1 o2 N1 N2 D1 D2 E. assert (Datatypes.S i = Datatypes.S j) by (eapply U; eauto). congruence. }
  destruct (o_def o) eqn:D; [|exact IHl]. cbn [map app s_name]. constructor; [|exact IHl].
  intro K. apply in_map_iff in K. destruct K as (y & YN & YI). apply in_flat_map in YI. destruct YI as (o' & OI & Y).
  destruct (o_def o') eqn:D'; [|destruct Y]. destruct Y as [<- | []]. cbn [s_name] in YN. apply In_nth_error in OI. destruct OI as (j & N').
  assert (O = Datatypes.S j) by (eapply U; [| |exact D | exact D' | congruence]; [reflexivity | exact N']). discriminate.
Qed.
End Unit.
Lemma definitions : forall p, valid p -> handled p -> exists s r, parse_unit p = Ok (s, r) /\
  (forall y, In y (emit s) <-> defines p y) /\ NoDup (map s_name (emit s)) /\ Forall2 agree r (uses p).
Proof.
  intros p VP HP. destruct (parsed p VP HP) as (s & r & e & P & V & A). exists s, r. split; [exact P|].
  split; [apply (symbols p VP HP e s V)|]. split; [apply (names_once p e s V) | exact A].
Qed.
