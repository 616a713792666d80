(** C12: a call of a function-like macro is replaced as the standard says. *)
From Coq Require Import Ascii String ZArith List Bool Lia.
From Verif Require Import Base LexModel PpSpec MacSpec MacModel MacPasteModel MacProofs MacTerm MacPaste.
Import ListNotations.
Local Open Scope string_scope.
Local Open Scope list_scope.

(** Replacement lists that are read as a sequence of operands: parameters are identifiers of the
    list of parameters, and no other token is one, or an operator, or __VA_OPT__. The operand
    after ## is not an application of #, and ,## is not used for the GNU extension. *)
Definition param_ok (ps : list string) (t : mtok) (i : nat) : Prop :=
  is_id t = true /\ nth_error ps i = Some (mtext t) /\ eqt t "#" = false /\ eqt t "##" = false /\ eqt t "," = false.
Definition item_ok (ps : list string) (x : item mtok) : Prop :=
  match x with
  | Plain t => is_pmark t = false /\ (forall s, In s ["#"; "##"; "__VA_OPT__"; "__VA_TAIL__"] -> eqt t s = false) /\ (is_id t = true -> ~ In (mtext t) ps)
  | Param t i => param_ok ps t i
  | Str h t i => eqt h "#" = true /\ param_ok ps t i
  end.
Definition is_str {T} (x : item T) : bool := match x with Str _ _ _ => true | _ => false end.
Definition chain_ok (ps : list string) (va : bool) (c : item mtok * list (item mtok)) : Prop :=
  item_ok ps (fst c) /\ (forall x, In x (snd c) -> item_ok ps x /\ is_str x = false) /\
  (va = true -> snd c <> [] -> forall t, fst c = Plain t -> eqt t "," = false).

Lemma index_nth ps s : forall i, NoDup ps -> nth_error ps i = Some s -> index s ps = Some i.
Proof.
  induction ps as [|x ps IH]; intros i ND H; [destruct i; discriminate|]. inversion ND as [|? ? NI ND']; subst. cbn [index]. destruct i as [|i]; cbn [nth_error] in H.
  - injection H as ->. rewrite String.eqb_refl. reflexivity.
  - destruct (String.eqb_spec x s) as [->|]; [exfalso; apply NI; eapply nth_error_In; exact H|]. rewrite (IH i ND' H). reflexivity.
Qed.
Lemma index_out ps s : ~ In s ps -> index s ps = None.
Proof.
  induction ps as [|x ps IH]; intros N; [reflexivity|]. cbn [index]. destruct (String.eqb_spec x s) as [->|]; [exfalso; apply N; left; reflexivity|]. rewrite IH; [reflexivity|]. intros H. apply N. right. exact H.
Qed.

Section Sub.
Variable paste : mtok -> mtok -> outcome mtok.
Hypothesis Hp : forall a b t, paste a b = Ok t -> is_pmark t = false.
Variable ea : list mtok -> outcome (list mtok).
Variable c : ctx.
Variable hh : mtok.
Hypothesis Hh : eqt hh "##" = true.
Variables raw full : nat -> list mtok.
Hypothesis Hraw : forall i, raw i = nth i (cargs c) [].
Hypothesis Hnp : forall i t, In t (raw i) -> is_pmark t = false.
Hypothesis Hea : forall i, ea (raw i) = Ok (full i).
Notation ps := (mparams (cmac c)).
Hypothesis Hnd : NoDup ps.
Notation join2 := (join2 mtok paste).
Notation join_all := (join_all mtok paste stringize raw).
Notation joined := (joined mtok stringize raw).
Notation head_joined := (head_joined mtok stringize align raw).
Notation chain_value := (chain_value mtok paste stringize align raw full).
Notation subst := (subst paste ea c).
Definition tail_toks (l : list (item mtok)) : list mtok := flat_map (fun x => hh :: item_toks x) l.

Lemma find_param sub t i r : param_ok ps t i -> find_arg ea c sub (t :: r) = Ok (Some (raw i, Ok (full i), r)).
Proof. intros [A [B _]]. cbn [find_arg]. rewrite A, (index_nth _ _ _ Hnd B), <- Hraw, Hea. reflexivity. Qed.
Lemma find_plain sub t r : item_ok ps (Plain t) -> find_arg ea c sub (t :: r) = Ok None.
Proof.
  intros [A [B C]]. cbn [find_arg]. destruct (is_id t); [|reflexivity]. rewrite (index_out _ _ (C eq_refl)). rewrite (B "__VA_OPT__") by (cbn; auto). reflexivity.
Qed.
Definition ends_ok (v : list mtok) : Prop := exists v0 x, v = v0 ++ [x] /\ is_pmark x = false.
Lemma ends_app v0 l : l <> [] -> (forall t, In t l -> is_pmark t = false) -> ends_ok (v0 ++ l).
Proof.
  intros N H. destruct (exists_last N) as [l0 [x ->]]. exists (v0 ++ l0), x. rewrite app_assoc. split; [reflexivity|]. apply H, in_app_iff. right. left. reflexivity.
Qed.
Lemma hash_not t : eqt t "##" = true -> eqt t "#" = false /\ eqt t "," = false.
Proof. unfold eqt. intros H. apply String.eqb_eq in H. rewrite H. split; reflexivity. Qed.
Lemma join2_rev v0 x y b : join2 (v0 ++ [x]) (y :: b) = (do p <- paste x y; Ok (v0 ++ p :: b)).
Proof. unfold MacSpec.join2. rewrite rev_app_distr. cbn [rev app]. rewrite rev_involutive. reflexivity. Qed.

Lemma tail_run : forall l n v acc r, (forall x, In x l -> item_ok ps x /\ is_str x = false) -> ends_ok v -> (length (tail_toks l ++ r) < n)%nat ->
  match join_all v l with
  | Ok w => ends_ok w /\ exists n', (length r < n')%nat /\ subst n (rev v ++ acc) (tail_toks l ++ r) = subst n' (rev w ++ acc) r
  | e => subst n (rev v ++ acc) (tail_toks l ++ r) = match e with UB => UB | _ => Abort end
  end.
Proof.
  induction l as [|x l IH]; intros n v acc r OK EV L; [cbn [MacSpec.join_all]; split; [exact EV|]; exists n; split; [exact L|reflexivity]|].
  destruct (OK x (or_introl eq_refl)) as [OX NS]. assert (OK' : forall x, In x l -> item_ok ps x /\ is_str x = false) by (intros y Hy; apply OK; right; exact Hy).
  destruct EV as [v0 [z [-> NZ]]]. destruct n as [|n]; [lia|].
  change (tail_toks (x :: l) ++ r) with (hh :: (item_toks x ++ tail_toks l) ++ r) in *. rewrite <- app_assoc in *. cbn [length] in L. rewrite app_length in L.
  destruct (hash_not _ Hh) as [H1 H2]. rewrite rev_app_distr. cbn [rev app MacModel.subst]. rewrite H1, H2, Hh. cbn [andb].
  cbn [MacSpec.join_all]. destruct x as [t|t i|h t i]; [| |discriminate]; cbn [item_toks app joined length] in *.
  - rewrite NZ, find_plain by exact OX. cbn [bind]. rewrite join2_rev. destruct (paste z t) as [p| |] eqn:PE; cbn [bind]; [|reflexivity..].
    assert (NP := Hp _ _ _ PE). specialize (IH n (v0 ++ [p]) acc r OK' (ex_intro _ v0 (ex_intro _ p (conj eq_refl NP))) ltac:(rewrite app_length in *; lia)).
    rewrite rev_app_distr in IH. cbn [rev app] in IH. exact IH.
  - rewrite NZ, find_param with (i := i) by exact OX. cbn [bind]. destruct (raw i) as [|y b] eqn:RI.
    + cbn [MacSpec.join2 bind]. specialize (IH n (v0 ++ [z]) acc r OK' (ex_intro _ v0 (ex_intro _ z (conj eq_refl NZ))) ltac:(rewrite app_length in *; lia)).
      rewrite rev_app_distr in IH. cbn [rev app] in IH. exact IH.
    + rewrite (Hnp i y) by (rewrite RI; left; reflexivity). rewrite join2_rev. destruct (paste z y) as [p| |] eqn:PE; cbn [bind]; [|reflexivity..].
      assert (NP := Hp _ _ _ PE). specialize (IH n (v0 ++ p :: b) acc r OK').
      replace (rev b ++ p :: rev v0 ++ acc) with (rev (v0 ++ p :: b) ++ acc) by (rewrite rev_app_distr; cbn [rev]; rewrite <- !app_assoc; reflexivity).
      apply IH; [|rewrite app_length in *; lia]. apply ends_app; [discriminate|]. intros u [<-|Hu]; [exact NP|]. apply (Hnp i). rewrite RI. right. exact Hu.
Qed.
Definition starts_op (l : list mtok) : bool := eqh l "##".
Lemma tail_head l r : starts_op r = false -> starts_op (tail_toks l ++ r) = negb (match l with [] => true | _ => false end).
Proof. intros H. destruct l as [|x l]; [exact H|]. cbn [tail_toks flat_map app starts_op eqh negb]. exact Hh. Qed.
Lemma gnu_off t l r : (mva (cmac c) = true -> l <> [] -> eqt t "," = false) -> starts_op r = false -> eqt t "," && eqh (tail_toks l ++ r) "##" && mva (cmac c) && is_va_param c (tl (tail_toks l ++ r)) = false.
Proof.
  intros H S. destruct (eqt t ",") eqn:E; [|reflexivity]. destruct (mva (cmac c)); [|rewrite andb_false_r; reflexivity]. destruct l as [|x l].
  - change (eqh (tail_toks [] ++ r) "##") with (starts_op r). rewrite S. reflexivity.
  - specialize (H eq_refl ltac:(discriminate)). discriminate.
Qed.
(** Placemarkers in the accumulator do not matter in the end. *)
Definition np (l : list mtok) : list mtok := filter (fun t => negb (is_pmark t)) l.
Lemma np_id l : (forall t, In t l -> is_pmark t = false) -> np l = l.
Proof. induction l as [|t l IH]; intros H; [reflexivity|]. cbn [np filter]. rewrite (H t (or_introl eq_refl)). cbn [negb]. f_equal. apply IH. intros u Hu. apply H. right. exact Hu. Qed.
Lemma joined_np x : item_ok ps x -> forall t, In t (joined x) -> is_pmark t = false.
Proof. destruct x as [t|t i|h t i]; cbn [item_ok MacSpec.joined]; intros H u Hu; [destruct Hu as [<-|[]]; apply H|eapply Hnp; exact Hu|destruct Hu as [<-|[]]; reflexivity]. Qed.
Lemma first_np l t : (forall u, In u l -> is_pmark u = false) -> forall u, In u (first_like mtok align l t) -> is_pmark u = false.
Proof. destruct l as [|x l]; intros H u Hu; [destruct Hu|]. destruct Hu as [<-|Hu]; [exact (H x (or_introl eq_refl))|]. apply H. right. exact Hu. Qed.
Lemma join_np : forall l v w, (forall x, In x l -> item_ok ps x /\ is_str x = false) -> (forall t, In t v -> is_pmark t = false) -> join_all v l = Ok w -> forall t, In t w -> is_pmark t = false.
Proof.
  induction l as [|x l IH]; intros v w OK HV; cbn [MacSpec.join_all]; [intros H; injection H as <-; exact HV|]. intros H. bnd H. eapply IH; [| |exact H]; [intros y Hy; apply OK; right; exact Hy|].
  pose proof (joined_np x (proj1 (OK x (or_introl eq_refl)))) as HJ. unfold MacSpec.join2 in E. destruct (joined x) as [|y b]; [injection E as <-; exact HV|].
  destruct (rev v) as [|z v'] eqn:RV; [injection E as <-; exact HJ|]. bnd E. injection E as <-. intros t Ht. apply in_app_iff in Ht. destruct Ht as [Ht|[<-|Ht]].
  - apply HV. apply in_rev. rewrite RV. right. apply in_rev. exact Ht.
  - eapply Hp. eassumption.
  - apply HJ. right. exact Ht.
Qed.

Hypothesis Hfp : forall i t, In t (full i) -> is_pmark t = false.
Lemma chain_np ch v : chain_ok ps (mva (cmac c)) ch -> chain_value ch = Ok v -> forall t, In t v -> is_pmark t = false.
Proof.
  intros [OH [OT _]]. unfold MacSpec.chain_value. destruct (snd ch) as [|x l] eqn:SE.
  - intros H. injection H as <-. destruct (fst ch) as [t|t i|h t i]; cbn [alone]; [apply (joined_np (Plain t) OH)|apply first_np; intros u; apply Hfp|apply (joined_np (Str h t i) OH)].
  - intros H. eapply join_np; [| |exact H]; [exact OT|]. destruct (fst ch) as [t|t i|h t i]; cbn [MacSpec.head_joined]; [apply (joined_np (Plain t) OH)|apply first_np; intros u; apply Hnp|apply (joined_np (Str h t i) OH)].
Qed.

Lemma chain_run ch n acc r : chain_ok ps (mva (cmac c)) ch -> (snd ch <> [] -> head_joined (fst ch) <> []) -> starts_op r = false -> (length (chain_toks hh ch ++ r) < n)%nat ->
  match chain_value ch with
  | Ok w => exists n' d, (length r < n')%nat /\ np d = rev w /\ subst n acc (chain_toks hh ch ++ r) = subst n' (d ++ acc) r
  | e => subst n acc (chain_toks hh ch ++ r) = match e with UB => UB | _ => Abort end
  end.
Proof.
  intros OC NE SR L. pose proof (chain_np ch) as CN. destruct ch as [x l]. destruct OC as [OX [OL OV]]. cbn [fst snd] in *. change (chain_toks hh (x, l)) with (item_toks x ++ tail_toks l) in *. rewrite <- app_assoc in *.
  (* after the first operand *)
  assert (GO : forall m v, head_joined x = v -> l <> [] -> (forall t, In t v -> is_pmark t = false) -> (length (tail_toks l ++ r) < m)%nat ->
    match join_all v l with
    | Ok w => exists n' d, (length r < n')%nat /\ np d = rev w /\ subst m (rev v ++ acc) (tail_toks l ++ r) = subst n' (d ++ acc) r
    | e => subst m (rev v ++ acc) (tail_toks l ++ r) = match e with UB => UB | _ => Abort end
    end).
  { intros m v HV NL PV LM. specialize (NE NL). rewrite HV in NE. pose proof (tail_run l m v acc r OL (ends_app [] v NE PV) LM) as T. destruct (join_all v l) as [w| |] eqn:JE; [|exact T|exact T].
    destruct T as [_ [n' [L' E']]]. exists n', (rev w). split; [exact L'|]. split; [|exact E']. apply np_id. intros t Ht. apply in_rev in Ht. eapply join_np; [exact OL|exact PV|exact JE|exact Ht]. }
  assert (HJN : forall t, In t (head_joined x) -> is_pmark t = false).
  { destruct x as [t|t i|h t i]; cbn [MacSpec.head_joined]; [apply (joined_np _ OX)|apply first_np; intros u; apply Hnp|apply (joined_np _ OX)]. }
  destruct n as [|n]; [lia|]. destruct x as [t|t i|h t i]; cbn [item_toks app length] in *.
  - destruct OX as [NP [NK NI]]. cbn [MacModel.subst]. rewrite (NK "#") by (cbn; auto). rewrite gnu_off by (auto; intros; eapply OV; eauto). rewrite (NK "##") by (cbn; auto).
    rewrite find_plain by (repeat split; auto). cbn [bind]. rewrite (NK "__VA_TAIL__") by (cbn; auto). cbn [andb].
    unfold MacSpec.chain_value. cbn [fst snd]. destruct l as [|y l].
    + cbn [alone]. exists n, [t]. cbn [tail_toks flat_map app] in *. repeat split; [lia|]. cbn [np filter rev app]. rewrite NP. reflexivity.
    + apply (GO n [t]); auto; [discriminate|lia].
  - pose proof OX as OX'. destruct OX as [A [B [C1 [C2 C3]]]]. cbn [MacModel.subst]. rewrite C1, C3, C2. cbn [andb]. rewrite find_param with (i := i) by exact OX'. cbn [bind].
    change (eqh (tail_toks l ++ r) "##") with (starts_op (tail_toks l ++ r)). rewrite tail_head by exact SR. unfold MacSpec.chain_value. cbn [fst snd]. destruct l as [|y l]; cbn [negb bind].
    + cbn [alone tail_toks flat_map app] in *. destruct (full i) as [|z fl] eqn:FI; cbn [first_like].
      * exists n, [mkmtok KPmark "" (sp t) false]. repeat split. lia.
      * exists n, (rev (align_first (z :: fl) t)). repeat split; [lia|]. apply np_id. intros u Hu. apply in_rev in Hu. apply (first_np (z :: fl) t); [|exact Hu]. intros y. rewrite <- FI. apply Hfp.
    + assert (NR : raw i <> []) by (specialize (NE ltac:(discriminate)); cbn [MacSpec.head_joined] in NE; intros E; rewrite E in NE; apply NE; reflexivity).
      specialize (GO n (align_first (raw i) t) eq_refl ltac:(discriminate) HJN ltac:(lia)). cbn [MacSpec.head_joined]. change (first_like mtok align (raw i) t) with (align_first (raw i) t). destruct (raw i); [congruence|exact GO].
  - destruct OX as [HX OX']. cbn [MacModel.subst]. rewrite HX, find_param with (i := i) by exact OX'. cbn [bind].
    unfold MacSpec.chain_value. cbn [fst snd]. destruct l as [|y l].
    + cbn [alone]. exists n, [stringize h (raw i)]. cbn [tail_toks flat_map app] in *. repeat split. lia.
    + apply (GO n [stringize h (raw i)]); auto; [discriminate|lia].
Qed.
Notation list_value := (list_value mtok paste stringize align raw full).
Lemma chain_head ch r : chain_ok ps (mva (cmac c)) ch -> starts_op (chain_toks hh ch ++ r) = false.
Proof.
  intros [OX _]. destruct ch as [x l]. cbn [fst] in OX. destruct x as [t|t i|h t i]; cbn [chain_toks item_toks fst app starts_op eqh].
  - apply OX. cbn. auto.
  - apply OX.
  - destruct OX as [OX _]. unfold eqt in *. apply String.eqb_eq in OX. rewrite OX. reflexivity.
Qed.
Definition body_ok (b : list (item mtok * list (item mtok))) : Prop :=
  forall ch, In ch b -> chain_ok ps (mva (cmac c)) ch /\ (snd ch <> [] -> head_joined (fst ch) <> []).
Lemma body_head b : body_ok b -> starts_op (flat_map (chain_toks hh) b) = false.
Proof. destruct b as [|ch b]; [reflexivity|]. intros H. cbn [flat_map]. apply chain_head. apply (H ch). left. reflexivity. Qed.
Theorem subst_spec : forall b n acc, body_ok b -> (length (flat_map (chain_toks hh) b) < n)%nat ->
  (do x <- subst n acc (flat_map (chain_toks hh) b); Ok (np x)) = (do v <- list_value b; Ok (np (rev acc) ++ v)).
Proof.
  induction b as [|ch b IH]; intros n acc OK L; cbn [flat_map MacSpec.list_value] in *.
  - destruct n as [|n]; [lia|]. cbn [MacModel.subst bind]. rewrite app_nil_r. reflexivity.
  - assert (OB : body_ok b) by (intros x Hx; apply OK; right; exact Hx). destruct (OK ch (or_introl eq_refl)) as [OC NE]. pose proof (chain_run ch n acc _ OC NE (body_head b OB) L) as C.
    destruct (chain_value ch) as [w| |]; cbn [bind]; [|rewrite C; reflexivity|rewrite C; reflexivity]. destruct C as [n' [d [L' [ND ->]]]]. rewrite IH by assumption.
    destruct (list_value b) as [v| |]; cbn [bind]; [|reflexivity..]. f_equal. rewrite rev_app_distr. unfold np in *. rewrite filter_app. rewrite <- app_assoc. f_equal. f_equal.
    assert (RV : forall (f : mtok -> bool) l, filter f (rev l) = rev (filter f l)).
    { intros f l. induction l as [|y l IHl]; [reflexivity|]. cbn [rev filter]. rewrite filter_app, IHl. cbn [filter]. destruct (f y); [reflexivity|]. rewrite app_nil_r. reflexivity. }
    rewrite RV, ND, rev_involutive. reflexivity.
Qed.
End Sub.

(** *** Reading the arguments *)
Lemma eqt_lp t : eqt t "(" = true -> eqt t ")" = false /\ eqt t "," = false.
Proof. unfold eqt. intros H. apply String.eqb_eq in H. rewrite H. split; reflexivity. Qed.
Lemma read_one rest : forall a lvl q r, wk lvl a = Some 0%nat -> (rest = true \/ no_top_comma lvl (txt a) = true) ->
  eqt q ")" || negb rest && eqt q "," = true -> read_arg_one rest lvl (a ++ q :: r) = Ok (a, q :: r).
Proof.
  induction a as [|t a IH]; intros lvl q r W NC Q; cbn [app read_arg_one].
  - assert (lvl = 0%nat) by (unfold wk in W; cbn in W; congruence). subst. rewrite Q. reflexivity.
  - rewrite wk_cons in W. cbn [txt map no_top_comma] in NC. change (String.eqb (ttext t)) with (eqt t) in NC.
    assert (G : Nat.eqb lvl 0 && (eqt t ")" || negb rest && eqt t ",") = false).
    { destruct (Nat.eqb_spec lvl 0) as [->|]; [|reflexivity]. cbn [andb]. destruct (eqt t "(") eqn:LP; [destruct (eqt_lp _ LP) as [-> ->]; rewrite andb_false_r; reflexivity|].
      destruct (eqt t ")") eqn:RP; [discriminate|]. cbn [orb]. destruct NC as [->|NC]; [reflexivity|]. apply andb_prop in NC. destruct NC as [NC _]. rewrite orb_false_r in NC. apply negb_true_iff in NC. rewrite NC, andb_false_r. reflexivity. }
    rewrite G. cbv zeta. rewrite IH; [reflexivity| | |exact Q].
    + destruct (eqt t "("); [exact W|]. destruct (eqt t ")"); [|exact W]. destruct lvl; [discriminate|exact W].
    + destruct NC as [NC|NC]; [left; exact NC|right]. destruct (eqt t "("); [exact NC|]. destruct (eqt t ")"); [exact NC|]. apply andb_prop in NC. apply NC.
Qed.
Definition args_ok (va : bool) (args : list (list mtok)) : Prop :=
  forall l a r, args = l ++ a :: r -> balanced_parens (txt a) /\ (no_top_comma 0 (txt a) = true \/ va = true /\ r = []).
Lemma args_tl va a args : args_ok va (a :: args) -> args_ok va args.
Proof. intros H l b r ->. apply (H (a :: l) b r). reflexivity. Qed.
Lemma eqh_app (a : list mtok) q r s : eqh (a ++ q :: r) s = match a with [] => eqt q s | t :: _ => eqt t s end.
Proof. destruct a; reflexivity. Qed.
Lemma bal_head t a : balanced_parens (txt (t :: a)) -> eqt t ")" = false.
Proof.
  unfold balanced_parens. cbn [txt map walk]. change (String.eqb (ttext t)) with (eqt t). destruct (eqt t "(") eqn:LP; [intros _; apply (eqt_lp _ LP)|]. destruct (eqt t ")"); [discriminate|reflexivity].
Qed.
Lemma read_all strict va cm q r : eqt cm "," = true -> eqt q ")" = true -> forall args (first : bool), args_ok va args ->
  exists om, read_args strict va (length args) first (match args with [] => [] | _ => (if first then [] else [cm]) end ++ separated cm args ++ q :: r) = Ok (args, om).
Proof.
  intros CM Q. assert (CMR : eqt cm ")" = false) by (unfold eqt in *; apply String.eqb_eq in CM; rewrite CM; reflexivity).
  induction args as [|a args IH]; intros first OK; [exists false; cbn [length separated app read_args eqh]; rewrite Q; reflexivity|].
  destruct (OK [] a args eq_refl) as [BA NC]. destruct args as [|b args].
  - cbn [separated length read_args]. rewrite Nat.eqb_refl, andb_true_r.
    assert (R1 : read_arg_one va 0 (a ++ q :: r) = Ok (a, q :: r)) by (apply read_one; [exact BA|tauto|rewrite Q; reflexivity]).
    destruct (va && eqh ((if first then [] else [cm]) ++ a ++ q :: r) ")") eqn:VE.
    + apply andb_prop in VE. destruct VE as [-> VE]. destruct first; [|cbn [app eqh] in VE; congruence]. cbn [app] in *. rewrite R1. cbn [bind snd fst eqh]. rewrite Q. eexists. reflexivity.
    + destruct first; cbn [app bind]; [|rewrite CM; cbn [bind]]; rewrite R1; cbn [bind snd fst eqh]; rewrite Q; eexists; reflexivity.
  - destruct (IH false (args_tl _ _ _ OK)) as [om RE]. exists om. cbn [app] in RE. change (separated cm (a :: b :: args)) with (a ++ cm :: separated cm (b :: args)). change (length (a :: b :: args)) with (S (length (b :: args))). rewrite <- app_assoc. cbn [app].
    cbn [read_args]. change (Nat.eqb (length (b :: args)) 0) with false. rewrite andb_false_r. cbn [andb].
    assert (R1 : read_arg_one false 0 (a ++ cm :: separated cm (b :: args) ++ q :: r) = Ok (a, cm :: separated cm (b :: args) ++ q :: r)).
    { apply read_one; [exact BA|destruct NC as [NC|[_ NC]]; [tauto|discriminate]|rewrite CM; cbn [negb andb]; apply orb_true_r]. }
    destruct first; cbn [app bind]; [|rewrite CM; cbn [bind]]; rewrite R1; cbn [bind snd fst]; rewrite RE; reflexivity.
Qed.
Lemma prepare_plain tbl : forall l lvl q r, wk lvl l = Some 0%nat -> eqt q ")" = true -> prepare tbl [] [] lvl (l ++ q :: r) = Ok ([], l ++ [q], r).
Proof.
  assert (PT : forall t, paintif tbl [] [] t = t) by (intros t; unfold paintif; destruct (find_mac tbl t); reflexivity).
  induction l as [|t l IH]; intros lvl q r W Q; cbn [app]; rewrite prepare_cons; cbv zeta; cbn [pop]; rewrite PT.
  - assert (lvl = 0%nat) by (unfold wk in W; cbn in W; congruence). subst. rewrite Q. reflexivity.
  - rewrite wk_cons in W. destruct (Nat.eqb lvl 0 && eqt t ")") eqn:G.
    + apply andb_prop in G. destruct G as [G1 G2]. apply Nat.eqb_eq in G1. subst. destruct (eqt t "(") eqn:LP; [destruct (eqt_lp _ LP); congruence|]. rewrite G2 in W. discriminate.
    + rewrite IH; [reflexivity| |exact Q]. unfold lvl'. destruct (eqt t "("); [exact W|]. destruct (eqt t ")"); [|exact W]. destruct lvl; [discriminate|exact W].
Qed.
Lemma separated_walk cm args : isp cm = false -> (forall a, In a args -> balanced_parens (txt a)) -> wk 0 (separated cm args) = Some 0%nat.
Proof.
  intros C H. induction args as [|a [|b args] IH]; [reflexivity|apply H; left; reflexivity|]. change (separated cm (a :: b :: args)) with (a ++ cm :: separated cm (b :: args)).
  rewrite wk_app. unfold wk at 1. rewrite (H a (or_introl eq_refl)). rewrite wk_np by exact C. apply IH. intros x Hx. apply H. right. exact Hx.
Qed.

(** *** No placemarker remains after expansion *)
Definition clean (l : list mtok) : Prop := forall t, In t l -> is_pmark t = false.
Lemma clean_np l : clean (np l).
Proof. intros t H. apply filter_In in H. destruct H as [_ H]. apply negb_true_iff in H. exact H. Qed.
Lemma clean_cons t l : is_pmark t = false -> clean l -> clean (t :: l).
Proof. intros A B u [<-|H]; auto. Qed.
Lemma clean_app a b : clean a -> clean b -> clean (a ++ b).
Proof. intros A B u H. apply in_app_iff in H. destruct H; auto. Qed.
Lemma clean_inv t l : clean (t :: l) -> is_pmark t = false /\ clean l.
Proof. intros H. split; [apply H; left; reflexivity|]. intros u Hu. apply H. right. exact Hu. Qed.
Section Clean.
Variable paste : mtok -> mtok -> outcome mtok.
Hypothesis Hp : forall a b t, paste a b = Ok t -> is_pmark t = false.
Variable strict : bool.
Variable tbl : mtable.
Hypothesis Ht : forall s m, lookup s tbl = Some m -> clean (mbody m).
Lemma insert_clean : forall l acc r, clean l -> clean acc -> insert_objlike paste acc l = Ok r -> clean r.
Proof.
  intros l. remember (length l) as n eqn:EN. assert (LN : (length l <= n)%nat) by lia. clear EN. revert l LN. induction n as [|n IH]; intros l LN acc r CL CA H.
  - destruct l; [|cbn in LN; lia]. injection H as <-. intros t Ht'. apply in_rev in Ht'. apply CA, Ht'.
  - destruct l as [|t l]; [injection H as <-; intros t Ht'; apply in_rev in Ht'; apply CA, Ht'|]. cbn [length] in LN. cbn [insert_objlike] in H. apply clean_inv in CL. destruct CL as [C1 C2]. destruct (eqt t "##").
    + destruct acc as [|cur acc]; [discriminate|]. destruct l as [|u l]; [discriminate|]. bnd H. apply clean_inv in C2. apply clean_inv in CA. cbn [length] in LN. eapply IH; [| | |exact H]; [lia|exact (proj2 C2)|apply clean_cons; [eapply Hp; exact E|exact (proj2 CA)]].
    + eapply IH; [| | |exact H]; [lia|exact C2|apply clean_cons; assumption].
Qed.
Lemma prepare_clean outer : forall l own lvl o a r, clean l -> prepare tbl outer own lvl l = Ok (o, a, r) -> clean r.
Proof.
  induction l as [|t l IH]; intros own lvl o a r C H; [discriminate|]. rewrite prepare_cons in H. cbv zeta in H. apply clean_inv in C. destruct (Nat.eqb lvl 0 && eqt t ")"); [injection H as _ _ <-; exact (proj2 C)|].
  bnd H. destruct x as [[o' a'] r']. injection H as _ _ <-. eapply IH; [exact (proj2 C)|exact E].
Qed.
Lemma expand_clean : forall f outer own l r, clean l -> expand paste strict tbl f outer own l = Ok r -> clean r.
Proof.
  induction f as [|f IH]; intros outer own l r C H; [discriminate|]. destruct l as [|t l]; [injection H as <-; exact C|]. rewrite expand_cons in H. cbv zeta in H. apply clean_inv in C. destruct C as [C1 C2].
  assert (EM : forall u, is_pmark u = false -> (do o <- expand paste strict tbl f outer (pop own (length l)) l; Ok (u :: o)) = Ok r -> clean r).
  { intros u CU E. bnd E. injection E as <-. apply clean_cons; [exact CU|]. eapply IH; eassumption. }
  assert (AF : forall b own2 r2, clean b -> clean r2 -> after paste strict tbl f outer t b own2 r2 = Ok r -> clean r).
  { intros b own2 r2 CB CR E. destruct b as [|x b]; unfold after in E; eapply IH; try exact E.
    - destruct r2 as [|y r2]; [exact CR|]. apply clean_inv in CR. destruct CR as [R1 R2]. apply clean_cons; assumption.
    - apply clean_inv in CB. destruct CB as [B1 B2]. apply clean_cons; [exact B1|]. apply clean_app; assumption. }
  destruct (noexp t); [eapply EM; eassumption|]. destruct (find_mac tbl t) as [m|] eqn:FM; [|eapply EM; eassumption]. destruct (locked outer own (mtext t)); [apply (EM (paint t)); assumption|].
  assert (CB : clean (mbody m)) by (unfold find_mac in FM; destruct (is_id t); [|discriminate]; eapply Ht; exact FM).
  destruct (mobj m).
  - bnd H. eapply AF; [| |exact H]; [eapply insert_clean; [exact CB| |exact E]; intros u []|exact C2].
  - destruct (eqh l "("); [|eapply EM; eassumption]. bnd H. destruct x as [[own2 pre] r3]. bnd H. eapply AF; [| |exact H]; [apply clean_np|]. eapply prepare_clean; [|exact E]. destruct l as [|y l]; [exact C2|]. apply clean_inv in C2. exact (proj2 C2).
Qed.
End Clean.
Lemma paste_lex_np o a b t : paste_lex o a b = Ok t -> is_pmark t = false.
Proof.
  unfold paste_lex. destruct (_ || _); [discriminate|]. destruct (tokenize _ _) as [[|k [|e [|]]]| |]; try discriminate. destruct (Nat.eqb _ _); [|discriminate]. intros H. injection H as <-. unfold is_pmark. cbn [mkind]. destruct (LexModel.kind k); reflexivity.
Qed.

(** *** A call outside any other macro *)
Theorem call_spec o strict tbl : (forall s m, lookup s tbl = Some m -> clean (mbody m)) ->
  forall t m lp rp cm hh args fulls body rest f,
  is_id t = true -> noexp t = false -> lookup (mtext t) tbl = Some m -> mobj m = false -> NoDup (mparams m) ->
  eqt lp "(" = true -> eqt rp ")" = true -> eqt cm "," = true -> eqt hh "##" = true ->
  length args = length (mparams m) -> args_ok (mva m) args -> (forall a, In a args -> clean a) ->
  mbody m = flat_map (chain_toks hh) body ->
  (forall ch, In ch body -> chain_ok (mparams m) (mva m) ch /\
     (snd ch <> [] -> head_joined mtok stringize align (fun i => nth i args []) (fst ch) <> [])) ->
  (1 <= f)%nat -> Forall2 (fun a e => expand (paste_lex o) strict tbl f [] [] a = Ok e) args fulls ->
  expand (paste_lex o) strict tbl (S f) [] [] (t :: lp :: separated cm args ++ rp :: rest) =
    (do v <- list_value mtok (paste_lex o) stringize align (fun i => nth i args []) (fun i => nth i fulls []) body;
     match v with
     | [] => expand (paste_lex o) strict tbl f [] [] (or_space rest t)
     | x :: b => expand (paste_lex o) strict tbl f [] [(mtext t, length rest)] (align x t :: b ++ rest)
     end).
Proof.
  intros CT t m lp rp cm hh args fulls body rest f ID NE LU NO ND LP RP CM HH LA AO CA BD BO F1 FA.
  rewrite expand_cons. cbv zeta. rewrite NE. unfold find_mac. rewrite ID, LU, NO. change (locked [] [] (mtext t)) with false. cbn [eqh tl pop]. rewrite LP.
  rewrite prepare_plain; [|apply separated_walk|exact RP].
  2: { eapply eqt_np; [exact CM|discriminate|discriminate]. }
  2: { intros a Ha. apply in_split in Ha. destruct Ha as [l1 [l2 ->]]. apply (AO l1 a l2 eq_refl). }
  cbn [bind]. destruct (read_all strict (mva m) cm rp [] CM RP args true AO) as [om RA]. rewrite LA in RA.
  replace (match args with [] => [] | _ :: _ => [] end ++ separated cm args ++ [rp]) with (separated cm args ++ [rp]) in RA by (destruct args; reflexivity). rewrite RA. cbn [bind fst snd names map app].
  rewrite BD.
  assert (FI : forall i, expand (paste_lex o) strict tbl f [] [] (nth i args []) = Ok (nth i fulls [])).
  { destruct f as [|f]; [lia|]. clear -FA. induction FA as [|a e args fulls H FA IH]; intros [|i]; cbn [nth]; auto. }
  assert (CI : forall i, clean (nth i args [])).
  { intros i. destruct (nth_in_or_default i args []) as [H|H]; [apply CA, H|rewrite H; intros x []]. }
  set (c := mkctx m args om).
  pose proof (subst_spec (paste_lex o) (paste_lex_np o) (expand (paste_lex o) strict tbl f [] []) c hh HH (fun i => nth i args []) (fun i => nth i fulls []) (fun i => eq_refl) (fun i => CI i) FI ND
    (fun i => expand_clean _ (paste_lex_np o) strict tbl CT f [] [] _ _ (CI i) (FI i)) body (S (length (flat_map (chain_toks hh) body))) [] BO (Nat.lt_succ_diag_r _)) as SS.
  cbn [rev app] in SS. change (np []) with (@nil mtok) in SS. cbn [app] in SS.
  destruct (list_value _ _ _ _ _ _ body) as [v| |]; cbn [bind] in SS |- *; destruct (subst _ _ _ _ _ _) as [x| |]; try discriminate; cbn [bind] in SS |- *; try reflexivity.
  unfold np in SS. injection SS as ->. unfold after. destruct v; reflexivity.
Qed.
