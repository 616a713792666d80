(** Proofs of C59: the types of expressions. *)
From Coq Require Import String ZArith List Bool Lia.
From Verif Require Import CompatSpec CompatModel CompatProofs TypSpec TypModel.
Import ListNotations.
Local Open Scope Z_scope.
Local Open Scope list_scope.

Lemma integer_is : forall t, integer t = is_integer t. Proof. destruct t; reflexivity. Qed.
Lemma arith_is : forall t, arith t = is_numeric t. Proof. destruct t; reflexivity. Qed.
Lemma array_is : forall t, array t = is_array t. Proof. destruct t; reflexivity. Qed.
Lemma func_is : forall t, func t = is_func t. Proof. destruct t; reflexivity. Qed.
Lemma integer_arith : forall t, integer t = true -> arith t = true. Proof. destruct t; auto. Qed.

Scheme typed_mi := Minimality for typed Sort Prop
  with arguments_mi := Minimality for arguments Sort Prop
  with chosen_mi := Minimality for chosen Sort Prop
  with associations_mi := Minimality for associations Sort Prop.

Section P.
Variable members : Z -> list mem.
Variable defined : Z -> bool.
Variable rsize : Z -> Z.
Variable zero : cx -> bool.
Variable opt : bool.
Hypothesis unique : forall i, NoDup (flat_map names (members i)).
Hypothesis sizes : forall i, defined i = true -> 0 <= rsize i.

Local Notation new_cast := (new_cast opt).
Local Notation int_promotion := (int_promotion opt).
Local Notation get_common_type := (get_common_type opt).
Local Notation usual_arith_conv := (usual_arith_conv opt).
Local Notation arith_node := (arith_node opt).
Local Notation add_node := (add_node opt).
Local Notation scaled := (scaled opt).
Local Notation fun_cast := (fun_cast opt).
Local Notation new_add := (new_add opt).
Local Notation new_sub := (new_sub opt).
Local Notation elab := (elab members rsize zero opt).
Local Notation value := (value).
Local Notation typed := (typed members defined zero false).

Lemma cast_ok : forall n t, invalid_cast (nt n) t = false ->
  exists n', new_cast n t = Ok n' /\ nq n' = noq /\ nt n' = t.
Proof.
  intros n t H. unfold TypModel.new_cast. rewrite H.
  destruct (opt && negb (is_bitfield n) && same_arith (nt n) t); eexists; split; [reflexivity| auto | reflexivity | auto].
Qed.
(** A cast that is not dropped. *)
Lemma cast_bf : forall n t, invalid_cast (nt n) t = false -> nbf n = None \/ is_bitfield n = true \/ arith (nt n) = false ->
  exists n', new_cast n t = Ok n' /\ nq n' = noq /\ nt n' = t /\ nbf n' = None.
Proof.
  intros n t H B. unfold TypModel.new_cast. rewrite H.
  destruct (opt && negb (is_bitfield n) && same_arith (nt n) t) eqn:E; eexists; (split; [reflexivity|]); cbn [nq nt nbf]; auto.
  apply andb_true_iff in E. destruct E as [E1 E2]. apply andb_true_iff in E1. destruct E1 as [_ E1].
  destruct B as [B | [B | B]]; [auto | rewrite B in E1; discriminate |].
  destruct (nt n); cbn [same_arith arith] in *; discriminate.
Qed.
Lemma arith_valid : forall s t, arith s = true -> t <> CVoid -> invalid_cast s t = false.
Proof. intros s t A N. unfold invalid_cast. destruct s, t; cbn in *; try discriminate; try reflexivity; congruence. Qed.
Lemma arith_valid' : forall s t, arith s = true -> invalid_cast s t = false.
Proof. intros s t A. unfold invalid_cast. destruct s, t; cbn in *; try discriminate; reflexivity. Qed.
Lemma scalar_valid : forall s t, scalar s = true -> is_flonum t = false -> invalid_cast s t = false.
Proof. intros s t A N. unfold invalid_cast. destruct s, t; cbn in *; try discriminate; reflexivity. Qed.

(** * Arithmetic *)
Lemma promo_wide : forall t w, integer t = true -> fits t w = true ->
  exists k u, promo t w = CInt k u /\ 3 <= rank k.
Proof.
  intros t w I F. unfold promo. destruct t; try discriminate.
  - exists KInt, false. split; [reflexivity | cbv; discriminate].
  - destruct w as [n|].
    + destruct ((n <? 32) || (n =? 32) && negb u) eqn:E. { exists KInt, false. split; [reflexivity | cbv; discriminate]. }
      destruct (n =? 32) eqn:E2. { exists KInt, true. split; [reflexivity | cbv; discriminate]. }
      exists k, u. split; [reflexivity|]. cbn [fits] in F. apply orb_false_iff in E. destruct E as [E _].
      apply Z.ltb_ge in E. apply Z.eqb_neq in E2. apply andb_true_iff in F. destruct F as [_ F]. apply Z.leb_le in F.
      destruct k; cbn [bits rank] in *; lia.
    + destruct (rank k <? rank KInt) eqn:E. { exists KInt, false. split; [reflexivity | cbv; discriminate]. }
      exists k, u. split; [reflexivity|]. apply Z.ltb_ge in E. exact E.
Qed.
Lemma promotion_ok : forall n, integer (nt n) = true -> fits (nt n) (nbf n) = true ->
  exists n', int_promotion n = Ok n' /\ nt n' = promo (nt n) (nbf n).
Proof.
  intros n I F. unfold TypModel.int_promotion, promo.
  assert (C : forall t, exists n', new_cast n t = Ok n' /\ nt n' = t).
  { intro t. destruct (cast_ok n t) as (n' & E & _ & T); [|eauto]. apply arith_valid', integer_arith, I. }
  destruct (nt n) as [| |k u| | | | | | |] eqn:T; try discriminate; destruct (nbf n) as [w|] eqn:W.
  - cbn [fits is_unsigned] in *. apply andb_true_iff in F. destruct F as [F1 F2]. apply Z.leb_le in F1, F2.
    replace (w =? 32) with false by (symmetry; apply Z.eqb_neq; lia). replace (w <=? 32) with true by (symmetry; apply Z.leb_le; lia).
    cbn [andb]. apply C.
  - cbn [isize]. change (1 <? 4) with true. apply C.
  - cbn [is_unsigned]. destruct (Z.ltb_spec w 32), (Z.eqb_spec w 32), (Z.leb_spec w 32), u; cbn [andb orb negb]; try lia; try apply C.
  - destruct k; cbn [isize int_rank rank]; cbv [Z.ltb Z.eqb Z.compare Pos.compare Pos.compare_cont Pos.eqb]; try apply C; eauto.
Qed.
Lemma common_ok : forall a b t, arith (nt a) = true -> arith (nt b) = true ->
  fits (nt a) (nbf a) = true -> fits (nt b) (nbf b) = true ->
  uac (promo (nt a) (nbf a)) (promo (nt b) (nbf b)) = Some t -> forall hp,
  exists a' b', get_common_type a b hp = Ok (t, a', b') /\ arith (nt a') = true /\ arith (nt b') = true.
Proof.
  intros a b t A B FA FB U hp. unfold TypModel.get_common_type.
  assert (NF : forall n, arith (nt n) = true -> is_func (nt n) = false /\ has_base (nt n) = false /\ is_numeric (nt n) = true).
  { intros n H. destruct (nt n); try discriminate; auto. }
  destruct (NF a A) as (FA1 & FA2 & FA3), (NF b B) as (FB1 & FB2 & FB3).
  rewrite FA1, FB1, !andb_false_r. rewrite FA2, FB2, !andb_false_r, FA3, FB3. cbn [negb orb andb].
  destruct (integer (nt a)) eqn:IA, (integer (nt b)) eqn:IB.
  - destruct (promotion_ok a IA FA) as (a' & EA & TA), (promotion_ok b IB FB) as (b' & EB & TB).
    destruct (promo_wide _ _ IA FA) as (k & u & PA & RA), (promo_wide _ _ IB FB) as (k' & u' & PB & RB).
    rewrite EA, EB. cbn [bind]. rewrite TA, TB. rewrite PA, PB in U |- *.
    assert (NFL : forall k, match nt a, nt b with CFlo a0, CFlo b0 => fkind_eqb a0 k || fkind_eqb b0 k
              | CFlo a0, _ | _, CFlo a0 => fkind_eqb a0 k | _, _ => false end = false).
    { intro z. destruct (nt a), (nt b); try discriminate; reflexivity. }
    rewrite !NFL. exists a', b'. rewrite TA, TB, PA, PB. split; [|auto].
    destruct k, k'; cbn [rank] in RA, RB; try lia; destruct u, u'; vm_compute in U; injection U as <-; reflexivity.
  - destruct (nt b) as [| | |f| | | | | |] eqn:TB; try discriminate. exists a, b. rewrite TB.
    assert (E : t = CFlo f). { destruct (promo_wide _ _ IA FA) as (k & u & PA & RA). rewrite PA in U. cbn in U. congruence. }
    split; [|auto]. subst t. destruct (nt a); try discriminate; destruct f; reflexivity.
  - destruct (nt a) as [| | |f| | | | | |] eqn:TA; try discriminate. exists a, b. rewrite TA.
    assert (E : t = CFlo f). { destruct (promo_wide _ _ IB FB) as (k & u & PA & RA). rewrite PA in U. cbn in U. congruence. }
    split; [|auto]. subst t. destruct (nt b); try discriminate; destruct f; reflexivity.
  - destruct (nt a) as [| | |f| | | | | |] eqn:TA; try discriminate. destruct (nt b) as [| | |g| | | | | |] eqn:TB; try discriminate.
    exists a, b. rewrite TA, TB. split; [|auto].
    destruct (nbf a), (nbf b); try discriminate; destruct f, g; vm_compute in U; injection U as <-; reflexivity.
Qed.
Lemma conv_ok : forall a b t, arith (nt a) = true -> arith (nt b) = true ->
  fits (nt a) (nbf a) = true -> fits (nt b) (nbf b) = true ->
  uac (promo (nt a) (nbf a)) (promo (nt b) (nbf b)) = Some t -> forall hp,
  exists a' b', usual_arith_conv a b hp = Ok (a', b') /\ nt a' = t.
Proof.
  intros a b t A B FA FB U hp. destruct (common_ok a b t A B FA FB U hp) as (a' & b' & E & A' & B').
  unfold TypModel.usual_arith_conv. rewrite E. cbn [bind].
  destruct (cast_ok a' t (arith_valid' _ _ A')) as (c & C1 & _ & C2), (cast_ok b' t (arith_valid' _ _ B')) as (d & D1 & _ & D2).
  rewrite C1, D1. cbn [bind]. eauto.
Qed.
Lemma uac_def : forall a b, arith a = true -> arith b = true -> forall v w, fits a v = true -> fits b w = true ->
  exists t, uac (promo a v) (promo b w) = Some t /\ arith t = true /\ (integer a = true -> integer b = true -> integer t = true).
Proof.
  intros a b A B v w FA FB. destruct (integer a) eqn:IA, (integer b) eqn:IB.
  - destruct (promo_wide _ _ IA FA) as (k & u & PA & RA), (promo_wide _ _ IB FB) as (k' & u' & PB & RB). rewrite PA, PB.
    cbn [uac]. destruct (Bool.eqb u u'). { eexists. split; [reflexivity | auto]. }
    destruct u; (destruct (_ <=? _); [eexists; split; [reflexivity | auto] |]); (destruct (_ <? _); eexists; split; [reflexivity | auto | reflexivity | auto]).
  - destruct (promo_wide _ _ IA FA) as (k & u & PA & RA). rewrite PA. destruct b; try discriminate.
    destruct w; [discriminate|]. cbn [promo uac]. eexists. split; [reflexivity|]. split; [reflexivity | discriminate].
  - destruct (promo_wide _ _ IB FB) as (k & u & PA & RA). rewrite PA. destruct a; try discriminate.
    destruct v; [discriminate|]. cbn [promo uac]. eexists. split; [reflexivity|]. split; [reflexivity | discriminate].
  - destruct a; try discriminate. destruct b; try discriminate. destruct v, w; try discriminate. cbn [promo uac].
    eexists. split; [reflexivity|]. split; [reflexivity | discriminate].
Qed.
Lemma arith_node_ok : forall a b t, arith (nt a) = true -> arith (nt b) = true ->
  fits (nt a) (nbf a) = true -> fits (nt b) (nbf b) = true ->
  uac (promo (nt a) (nbf a)) (promo (nt b) (nbf b)) = Some t -> exists q, arith_node a b = Ok (mk q t).
Proof.
  intros a b t A B FA FB U. destruct (conv_ok a b t A B FA FB U false) as (a' & b' & E & T).
  unfold TypModel.arith_node. rewrite E. cbn [bind fst]. rewrite T. eauto.
Qed.
Lemma arith_node_some : forall a b, arith (nt a) = true -> arith (nt b) = true ->
  fits (nt a) (nbf a) = true -> fits (nt b) (nbf b) = true ->
  exists q t, arith_node a b = Ok (mk q t) /\ arith t = true /\ (integer (nt a) = true -> integer (nt b) = true -> integer t = true).
Proof.
  intros a b A B FA FB. destruct (uac_def _ _ A B _ _ FA FB) as (t & U & AT & IT).
  destruct (arith_node_ok a b t A B FA FB U) as (q & E). eauto.
Qed.

(** * Operands *)
Record good (n : node) (s : sty) : Prop := Good {
  g_t : nt n = st s;
  g_q : lv s = true -> nq n = sq s;
  g_bf : nbf n = sbf s;
  g_null : is_nullptr n = snull s;
  g_mem : lv s = true -> sbf s <> None -> nmem n = true;
  g_rv : lv s = false -> array (st s) = false /\ func (st s) = false;
  g_fn : func (st s) = true -> nq n = noq;
  g_fit : fits (st s) (sbf s) = true;
  g_nv : snull s = true -> integer (st s) = true \/ st s = CPtr noq CVoid }.

(** A node that is used as a pointer of type [CPtr q t]. *)
Inductive rp (n : node) (q : quals) (t : ctype) : Prop :=
| rp_ptr : nt n = CPtr q t -> rp n q t
| rp_arr : is_array (nt n) = true -> base (nt n) = Some (q, t) -> rp n q t
| rp_fun : is_func (nt n) = true -> nt n = t -> nq n = noq -> q = noq -> rp n q t.

Lemma add_cv_plain : forall q p, cv q = false -> add_cv q p = p.
Proof.
  intros q [a c v r] H. unfold add_cv, cv in *. apply orb_false_iff in H. destruct H as [H1 H2].
  cbn [q_atomic q_const q_volatile q_restrict]. rewrite H1, H2. reflexivity.
Qed.
Lemma push_plain : forall q t p, cv q = false -> push q p t = (p, t).
Proof.
  intros q t. induction t; intros p H; cbn [push]; try (rewrite add_cv_plain by exact H; reflexivity);
    rewrite IHt by exact H; reflexivity.
Qed.
Lemma value_cases : forall s q t, value s = CPtr q t ->
  st s = CPtr q t \/
  (array (st s) = true /\ exists p u, base (st s) = Some (p, u) /\ push (sq s) p u = (q, t)) \/
  (func (st s) = true /\ t = st s /\ q = noq).
Proof.
  intros s q t H. unfold TypSpec.value in H. destruct (st s) eqn:T; try discriminate H.
  - left. exact H.
  - right. left. split; [reflexivity|]. exists q0, c. split; [reflexivity|].
    destruct (push (sq s) q0 c) as [x y]. injection H as -> ->. reflexivity.
  - right. left. split; [reflexivity|]. exists q0, c. split; [reflexivity|].
    destruct (push (sq s) q0 c) as [x y]. injection H as -> ->. reflexivity.
  - right. right. injection H as <- <-. auto.
Qed.
Lemma value_rp : forall n s q t, good n s -> plain_value false s -> value s = CPtr q t -> rp n q t.
Proof.
  intros n s q t G P V. destruct (value_cases s q t V) as [E | [(A & p & u & B & U) | (F & -> & ->)]].
  - apply rp_ptr. rewrite (g_t _ _ G). exact E.
  - destruct P as [P | P]; [discriminate|]. rewrite A in P. cbn [andb] in P. apply negb_true_iff in P.
    rewrite push_plain in U by exact P. injection U as -> ->.
    apply rp_arr; rewrite (g_t _ _ G); [rewrite <- array_is; exact A | exact B].
  - apply rp_fun; [rewrite (g_t _ _ G), <- func_is; exact F | apply (g_t _ _ G) | exact (g_fn _ _ G F) | reflexivity].
Qed.
Lemma value_some : forall n s q t, good n s -> value s = CPtr q t -> exists q' t', rp n q' t'.
Proof.
  intros n s q t G V. destruct (value_cases s q t V) as [E | [(A & p & u & B & U) | (F & -> & ->)]].
  - exists q, t. apply rp_ptr. rewrite (g_t _ _ G). exact E.
  - exists p, u. apply rp_arr; rewrite (g_t _ _ G); [rewrite <- array_is; exact A | exact B].
  - exists noq, (st s). apply rp_fun; [rewrite (g_t _ _ G), <- func_is; exact F | apply (g_t _ _ G) | exact (g_fn _ _ G F) | reflexivity].
Qed.
Lemma push_void : forall q p t, (snd (push q p t) = CVoid <-> t = CVoid) /\ func (snd (push q p t)) = func t.
Proof.
  intros q p t. destruct t; cbn [push snd func]; try (split; [tauto | reflexivity]).
  - destruct (push q q0 t) as [x y]. cbn [snd func]. split; [split; discriminate | reflexivity].
  - destruct (push q q0 t) as [x y]. cbn [snd func]. split; [split; discriminate | reflexivity].
Qed.
Lemma value_raw : forall n s q t, good n s -> value s = CPtr q t -> func t = false ->
  exists q' t', rp n q' t' /\ func t' = false /\ (t' = CVoid <-> t = CVoid).
Proof.
  intros n s q t G V FT. destruct (value_cases s q t V) as [E | [(A & p & u & B & U) | (F & -> & ->)]].
  - exists q, t. split; [apply rp_ptr; rewrite (g_t _ _ G); exact E | tauto].
  - exists p, u. split; [apply rp_arr; rewrite (g_t _ _ G); [rewrite <- array_is; exact A | exact B]|].
    pose proof (push_void (sq s) p u) as [X Y]. rewrite U in X, Y. cbn [snd] in X, Y. split; [congruence | tauto].
  - congruence.
Qed.
Definition deco (n : node) : ctype := if is_func (nt n) then CPtr (nq n) (nt n) else nt n.
Lemma rp_deco : forall n q t, rp n q t -> base (deco n) = Some (q, t) /\ array_to_pointer (deco n) = CPtr q t.
Proof.
  intros n q t [H | A B | F T Q ->]; unfold deco.
  - rewrite H. auto.
  - destruct (nt n); try discriminate; cbn in *; injection B as -> ->; auto.
  - rewrite F, Q, T. auto.
Qed.
Lemma rp_cast : forall n q t u, rp n q t -> is_flonum u = false -> invalid_cast (nt n) u = false.
Proof.
  intros n q t u H F. unfold invalid_cast. rewrite F, andb_false_r, orb_false_r.
  destruct H as [H | A B | A T Q ->]; [rewrite H | |]; try (destruct (nt n); try discriminate); apply andb_false_r.
Qed.
Lemma null_cast : forall n u, is_nullptr n = true -> is_flonum u = false -> invalid_cast (nt n) u = false.
Proof.
  intros n u N F. unfold is_nullptr in N. unfold invalid_cast. rewrite F, andb_false_r, orb_false_r.
  destruct (nt n); try (destruct (ncast n); discriminate); apply andb_false_r.
Qed.
Lemma rp_castp : forall n q t p u, rp n q t -> invalid_cast (nt n) (CPtr p u) = false.
Proof. intros. eapply rp_cast; [eassumption | reflexivity]. Qed.
Lemma null_castp : forall n p u, is_nullptr n = true -> invalid_cast (nt n) (CPtr p u) = false.
Proof. intros. apply null_cast; [assumption | reflexivity]. Qed.
Lemma cond_cast_ok : forall n s, good n s -> scalar (value s) = true -> exists c, cond_cast opt n = Ok c.
Proof.
  intros n s G H. unfold cond_cast. destruct (ncmp n); [eauto|].
  destruct (cast_ok n CBool) as (c & E & _); [|eauto]. unfold invalid_cast. rewrite (g_t _ _ G).
  unfold TypSpec.value in H. destruct (st s); cbn in *; try reflexivity; discriminate.
Qed.

(** * Pointer arithmetic *)
Lemma scaled_ok : forall n u, integer (nt n) = true -> fits (nt n) (nbf n) = true ->
  exists q t, scaled n u = Ok (mk q t) /\ integer t = true.
Proof.
  intros n u I F. unfold TypModel.scaled.
  destruct (arith_node_some n (mk noq match u with CVla _ _ => ty_ulong | _ => ty_long end)) as (q & t & E & _ & IT);
    [apply integer_arith, I | destruct u; reflexivity | exact F | reflexivity |].
  exists q, t. split; [exact E|]. apply IT; [exact I | destruct u; reflexivity].
Qed.
Lemma add_node_l : forall l r q u, base (nt l) = Some (q, u) -> exists p, add_node l r = Ok (mk p (CPtr q u)).
Proof.
  intros l r q u B. unfold TypModel.add_node, has_base. rewrite B.
  destruct (nt l) eqn:T; try discriminate; cbn [base] in B; injection B as -> ->; [eauto | |];
    destruct (cast_ok l (CPtr q u)) as (c & E & Q & C); try (rewrite T; reflexivity);
    rewrite E; cbn [bind]; rewrite C; eauto.
Qed.
Lemma add_node_r : forall l r q u, base (nt l) = None -> base (nt r) = Some (q, u) -> exists p, add_node l r = Ok (mk p (CPtr q u)).
Proof.
  intros l r q u N B. unfold TypModel.add_node, has_base. rewrite N, B.
  destruct (nt r) eqn:T; try discriminate; cbn [base] in B; injection B as -> ->; [eauto | |];
    destruct (cast_ok r (CPtr q u)) as (c & E & Q & C); try (rewrite T; reflexivity);
    rewrite E; cbn [bind]; rewrite C; eauto.
Qed.
Lemma base_num : forall t b, base t = Some b -> is_numeric t = false /\ is_func t = false /\ is_integer t = false.
Proof. intros t b H. destruct t; try discriminate; auto. Qed.
Lemma int_base : forall t, is_integer t = true -> base t = None /\ is_func t = false.
Proof. intros t H. destruct t; try discriminate; auto. Qed.
Lemma new_add_pi : forall l r q u, base (nt l) = Some (q, u) -> integer (nt r) = true -> fits (nt r) (nbf r) = true ->
  exists p, new_add l r = Ok (mk p (CPtr q u)).
Proof.
  intros l r q u B I F. unfold TypModel.new_add, TypModel.fun_cast. destruct (base_num _ _ B) as (N & Fu & NI).
  rewrite integer_is in I. destruct (int_base _ I) as (BR & FR).
  rewrite N, Fu, FR. cbn [andb bind]. rewrite NI, I, B. rewrite <- integer_is in I.
  destruct (scaled_ok r u I F) as (p & t & E & IT). rewrite E. cbn [bind]. apply add_node_l, B.
Qed.
Lemma new_add_ip : forall l r q u, base (nt r) = Some (q, u) -> integer (nt l) = true -> fits (nt l) (nbf l) = true ->
  exists p, new_add l r = Ok (mk p (CPtr q u)).
Proof.
  intros l r q u B I F. unfold TypModel.new_add, TypModel.fun_cast. destruct (base_num _ _ B) as (N & Fu & NI).
  rewrite integer_is in I. destruct (int_base _ I) as (BR & FR).
  rewrite N, Fu, FR, andb_false_r. cbn [andb bind]. rewrite I, B, BR. rewrite <- integer_is in I.
  destruct (scaled_ok l u I F) as (p & t & E & IT). rewrite E. cbn [bind]. apply add_node_r; [|exact B].
  cbn [mk nt]. rewrite integer_is in IT. apply (int_base _ IT).
Qed.
Lemma new_sub_pi : forall l r q u, base (nt l) = Some (q, u) -> integer (nt r) = true -> fits (nt r) (nbf r) = true ->
  exists p, new_sub l r = Ok (mk p (CPtr q u)).
Proof.
  intros l r q u B I F. unfold TypModel.new_sub, TypModel.fun_cast. destruct (base_num _ _ B) as (N & Fu & NI).
  rewrite integer_is in I. destruct (int_base _ I) as (BR & FR).
  rewrite N, Fu, FR. cbn [andb bind]. rewrite B, I. rewrite <- integer_is in I.
  destruct (scaled_ok r u I F) as (p & t & E & IT). rewrite E. cbn [bind]. apply add_node_l, B.
Qed.
Lemma new_sub_pp : forall l r q u p v, base (nt l) = Some (q, u) -> base (nt r) = Some (p, v) ->
  exists n, new_sub l r = Ok n /\ nt n = ty_long /\ nbf n = None.
Proof.
  intros l r q u p v B C. unfold TypModel.new_sub, TypModel.fun_cast.
  destruct (base_num _ _ B) as (N & Fu & NI), (base_num _ _ C) as (N' & Fu' & NI').
  rewrite N, Fu, Fu'. cbn [andb bind]. rewrite B, NI'. unfold has_base. rewrite C.
  assert (V : forall n b, base (nt n) = Some b -> invalid_cast (nt n) ty_long = false /\ arith (nt n) = false).
  { intros n b H. destruct (nt n); try discriminate; split; reflexivity. }
  destruct (cast_bf l ty_long) as (a & A1 & A2 & A3 & A4); [eapply V; eassumption | right; right; eapply V; eassumption|].
  destruct (cast_bf r ty_long) as (b & B1 & B2 & B3 & B4); [eapply V; eassumption | right; right; eapply V; eassumption|].
  rewrite A1, B1. cbn [bind].
  destruct (arith_node_some a b) as (q1 & t1 & E1 & AT & IT); [rewrite A3; reflexivity | rewrite B3; reflexivity | rewrite A4; reflexivity | rewrite B4; reflexivity |].
  rewrite E1. cbn [bind].
  destruct (arith_node_some (mk q1 t1) (mk noq ty_int)) as (q2 & t2 & E2 & AT2 & IT2); [exact AT | reflexivity | reflexivity | reflexivity |].
  rewrite E2. cbn [bind].
  destruct (cast_bf (mk q2 t2) ty_long) as (c & C1 & C2 & C3 & C4); [apply arith_valid'; exact AT2 | left; reflexivity |]. eauto.
Qed.

(** * Comparison and ?: *)
Lemma common_rp : forall a b q t p u, rp a q t -> rp b p u ->
  exists v, get_common_type a b true = Ok (v, a, b) /\ is_flonum v = false /\
    (is_nullptr a = false -> is_nullptr b = false -> v = if ceq t u then CPtr q t else CPtr noq CVoid) /\
    (is_nullptr b = true -> v = CPtr q t) /\ (is_nullptr a = true -> is_nullptr b = false -> v = CPtr p u).
Proof.
  intros a b q t p u A B. destruct (rp_deco _ _ _ A) as (A1 & A2), (rp_deco _ _ _ B) as (B1 & B2).
  unfold TypModel.get_common_type. cbn [andb]. fold (deco a) (deco b). unfold has_base. rewrite A1, B1. cbn [andb].
  destruct (is_nullptr b) eqn:NB.
  { eexists. split; [reflexivity|]. rewrite A2. repeat split; try discriminate. }
  destruct (is_nullptr a) eqn:NA.
  { eexists. split; [reflexivity|]. rewrite B2. repeat split; try discriminate. }
  destruct (ceq t u); eexists; (split; [reflexivity|]); rewrite ?A2; repeat split; try discriminate.
Qed.
Lemma common_null_r : forall a b q t, rp a q t -> is_nullptr b = true -> get_common_type a b true = Ok (CPtr q t, a, b).
Proof.
  intros a b q t A N. destruct (rp_deco _ _ _ A) as (A1 & A2).
  unfold TypModel.get_common_type. cbn [andb]. fold (deco a) (deco b). unfold has_base. rewrite A1, N, A2. reflexivity.
Qed.
Lemma null_shape : forall n, is_nullptr n = true -> integer (nt n) = true \/ exists q, nt n = CPtr q CVoid.
Proof.
  intros n H. unfold is_nullptr in H. destruct (nt n) as [| | | | | |q t| | |]; try (destruct (ncast n); discriminate); auto.
  destruct t; try (destruct (ncast n); discriminate). eauto.
Qed.
Lemma common_null_l : forall a b q t, rp b q t -> is_nullptr a = true -> integer (nt a) = true -> get_common_type a b true = Ok (CPtr q t, a, b).
Proof.
  intros a b q t B N I. destruct (rp_deco _ _ _ B) as (B1 & B2).
  assert (D : is_func (nt a) = false /\ base (nt a) = None) by (destruct (nt a); try discriminate; auto). destruct D as [D1 D2].
  unfold TypModel.get_common_type. cbn [andb]. fold (deco b). rewrite D1. unfold has_base. rewrite D2, B1, N, B2. reflexivity.
Qed.
Lemma conv_of : forall a b v, get_common_type a b true = Ok (v, a, b) -> is_flonum v = false ->
  invalid_cast (nt a) v = false -> invalid_cast (nt b) v = false ->
  exists a' b', usual_arith_conv a b true = Ok (a', b') /\ nt a' = v.
Proof.
  intros a b v E F A B. unfold TypModel.usual_arith_conv. rewrite E. cbn [bind].
  destruct (cast_ok a v A) as (c & C1 & _ & C2), (cast_ok b v B) as (d & D1 & _ & D2). rewrite C1, D1. cbn [bind]. eauto.
Qed.

Lemma num_eq : forall n s, good n s -> promo (nt n) (nbf n) = num s.
Proof. intros n s G. unfold num. rewrite (g_t _ _ G), (g_bf _ _ G). reflexivity. Qed.
Lemma fit_n : forall n s, good n s -> fits (nt n) (nbf n) = true.
Proof. intros n s G. rewrite (g_t _ _ G), (g_bf _ _ G). apply (g_fit _ _ G). Qed.
Lemma rp_base : forall n q t, rp n q t -> func t = false -> base (nt n) = Some (q, t).
Proof.
  intros n q t [H | A B | F T Q ->] N; [rewrite H; reflexivity | exact B |].
  rewrite func_is in N. rewrite T in F. congruence.
Qed.
Lemma object_func : forall t, object defined t = true -> func t = false.
Proof. destruct t; auto. Qed.
Lemma int_num : forall t w, integer t = true -> fits t w = true -> integer (promo t w) = true.
Proof. intros t w I F. destruct (promo_wide t w I F) as (k & u & E & _). rewrite E. reflexivity. Qed.

Lemma binary_ok : forall o sa sb t a b, good a sa -> good b sb -> binary defined false o sa sb t ->
  exists n, binary_node opt o a b = Ok n /\ nt n = t /\ nbf n = None /\ (ncast n = None \/ is_integer t = true).
Proof.
  intros o sa sb t a b GA GB H. pose proof (fit_n _ _ GA) as FA. pose proof (fit_n _ _ GB) as FB.
  assert (AR : arith (st sa) = true -> arith (st sb) = true -> uac (num sa) (num sb) = Some t ->
    exists q, arith_node a b = Ok (mk q t)).
  { intros A B U. apply arith_node_ok; rewrite ?(g_t _ _ GA), ?(g_t _ _ GB); auto.
    - rewrite (g_bf _ _ GA). apply (g_fit _ _ GA).
    - rewrite (g_bf _ _ GB). apply (g_fit _ _ GB).
    - rewrite (g_bf _ _ GA), (g_bf _ _ GB). exact U. }
  assert (CMP : forall v, get_common_type a b true = Ok (v, a, b) -> is_flonum v = false ->
    invalid_cast (nt a) v = false -> invalid_cast (nt b) v = false ->
    exists n, cmp_node opt a b = Ok n /\ nt n = int /\ nbf n = None /\ (ncast n = None \/ is_integer int = true)).
  { intros v E F CA CB. destruct (conv_of a b v E F CA CB) as (a' & b' & U & _). unfold cmp_node. rewrite U. cbn [bind].
    exists int_node. repeat split; left; reflexivity. }
  assert (CMPO : forall o, In o [OLt; OGt; OLe; OGe; OEq; ONe] -> binary_node opt o a b = cmp_node opt a b).
  { intros o' I. cbn [In] in I. repeat (destruct I as [<- | I]; [reflexivity|]). contradiction. }
  assert (EQO : forall o, In o [OEq; ONe] -> binary_node opt o a b = cmp_node opt a b).
  { intros o' I. cbn [In] in I. repeat (destruct I as [<- | I]; [reflexivity|]). contradiction. }
  destruct H as [o a0 b0 t IO A B U | o a0 b0 t IO A B U | o a0 b0 IO A B | o a0 b0 q t IO V P OB I | a0 b0 q t I V P OB
    | a0 b0 q t p u V W C OB | o a0 b0 IO A B | o a0 b0 q t p u IO V W C | o a0 b0 q t p u IO V W C
    | o a0 b0 q t IO V N | o a0 b0 q t IO N V | o a0 b0 IO A B].
  - destruct (AR A B U) as (q & E). assert (X : binary_node opt o a b = arith_node a b).
    { cbn [In] in IO. destruct IO as [<- | [<- | [<- | [<- | []]]]]; try reflexivity; cbn [binary_node].
      - unfold TypModel.new_add. rewrite <- !arith_is, (g_t _ _ GA), (g_t _ _ GB), A, B. reflexivity.
      - unfold TypModel.new_sub. rewrite <- !arith_is, (g_t _ _ GA), (g_t _ _ GB), A, B. reflexivity. }
    rewrite X, E. exists (mk q t). repeat split. left. reflexivity.
  - destruct (AR (integer_arith _ A) (integer_arith _ B) U) as (q & E). assert (X : binary_node opt o a b = arith_node a b).
    { cbn [In] in IO. destruct IO as [<- | [<- | [<- | [<- | []]]]]; reflexivity. }
    rewrite X, E. exists (mk q t). repeat split. left. reflexivity.
  - assert (X : binary_node opt o a b = shift_node opt a b). { cbn [In] in IO. destruct IO as [<- | [<- | []]]; reflexivity. }
    rewrite X. unfold shift_node. rewrite (g_t _ _ GA), (g_t _ _ GB). rewrite <- (integer_is (st a0)), <- (integer_is (st b0)), A, B. cbn [negb].
    destruct (promotion_ok a) as (m & E & T); [rewrite (g_t _ _ GA); exact A | exact FA |]. rewrite E. cbn [bind].
    exists (mk (nq m) (nt m)). rewrite T, (num_eq _ _ GA). repeat split. left. reflexivity.
  - pose proof (rp_base _ _ _ (value_rp _ _ _ _ GA P V) (object_func _ OB)) as BA.
    cbn [In] in IO. destruct IO as [<- | [<- | []]]; cbn [binary_node].
    + destruct (new_add_pi a b q t BA) as (p & E); [rewrite (g_t _ _ GB); exact I | exact FB |]. rewrite E.
      exists (mk p (CPtr q t)). repeat split. left. reflexivity.
    + destruct (new_sub_pi a b q t BA) as (p & E); [rewrite (g_t _ _ GB); exact I | exact FB |]. rewrite E.
      exists (mk p (CPtr q t)). repeat split. left. reflexivity.
  - pose proof (rp_base _ _ _ (value_rp _ _ _ _ GB P V) (object_func _ OB)) as BB. cbn [binary_node].
    destruct (new_add_ip a b q t BB) as (p & E); [rewrite (g_t _ _ GA); exact I | exact FA |]. rewrite E.
    exists (mk p (CPtr q t)). repeat split. left. reflexivity.
  - cbn [binary_node].
    assert (BS : forall n s x y, good n s -> value s = CPtr x y -> func y = false -> exists z, base (nt n) = Some z).
    { intros n s x y G VV F. rewrite (g_t _ _ G). destruct (value_cases s x y VV) as [E | [(AA & z & v & E & _) | (FF & -> & _)]].
      - rewrite E. eexists. reflexivity.
      - rewrite E. eauto.
      - congruence. }
    assert (FU : func u = false). { pose proof (object_func _ OB) as F. clear - C F. destruct C; auto. }
    destruct (BS _ _ _ _ GA V (object_func _ OB)) as ([z1 z2] & BA), (BS _ _ _ _ GB W FU) as ([z3 z4] & BB).
    destruct (new_sub_pp a b _ _ _ _ BA BB) as (n & E & T & W'). exists n. repeat split; auto.
  - rewrite (CMPO o IO). rewrite <- (g_t _ _ GA) in A. rewrite <- (g_t _ _ GB) in B.
    destruct (uac_def _ _ A B _ _ FA FB) as (t & U & _). destruct (conv_ok a b t A B FA FB U true) as (a' & b' & E & _).
    unfold cmp_node. rewrite E. cbn [bind]. exists int_node. repeat split; left; reflexivity.
  - rewrite (CMPO o IO). destruct (value_some _ _ _ _ GA V) as (q1 & t1 & R1), (value_some _ _ _ _ GB W) as (q2 & t2 & R2).
    destruct (common_rp _ _ _ _ _ _ R1 R2) as (v & E & F & _).
    apply (CMP v E F); [apply (rp_cast _ _ _ _ R1 F) | apply (rp_cast _ _ _ _ R2 F)].
  - rewrite (EQO o IO). destruct (value_some _ _ _ _ GA V) as (q1 & t1 & R1), (value_some _ _ _ _ GB W) as (q2 & t2 & R2).
    destruct (common_rp _ _ _ _ _ _ R1 R2) as (v & E & F & _).
    apply (CMP v E F); [apply (rp_cast _ _ _ _ R1 F) | apply (rp_cast _ _ _ _ R2 F)].
  - rewrite (EQO o IO). destruct (value_some _ _ _ _ GA V) as (q1 & t1 & R1). rewrite <- (g_null _ _ GB) in N.
    apply (CMP _ (common_null_r _ _ _ _ R1 N) eq_refl); [apply (rp_castp _ _ _ _ _ R1) | apply (null_castp _ _ _ N)].
  - rewrite (EQO o IO). destruct (value_some _ _ _ _ GB V) as (q1 & t1 & R1). rewrite <- (g_null _ _ GA) in N.
    destruct (null_shape _ N) as [I | (p & T)].
    + apply (CMP _ (common_null_l _ _ _ _ R1 N I) eq_refl); [apply (null_castp _ _ _ N) | apply (rp_castp _ _ _ _ _ R1)].
    + assert (R2 : rp a p CVoid) by (apply rp_ptr; exact T).
      destruct (common_rp _ _ _ _ _ _ R2 R1) as (v & E & F & _).
      apply (CMP v E F); [apply (rp_cast _ _ _ _ R2 F) | apply (rp_cast _ _ _ _ R1 F)].
  - destruct (cond_cast_ok _ _ GA A) as (c & C), (cond_cast_ok _ _ GB B) as (d & D).
    assert (X : binary_node opt o a b = log_node opt a b). { cbn [In] in IO. destruct IO as [<- | [<- | []]]; reflexivity. }
    rewrite X. unfold log_node. rewrite C, D. cbn [bind]. exists int_node. repeat split; left; reflexivity.
Qed.

Lemma cond_ok : forall sa sb t a b, good a sa -> good b sb -> choice false sa sb t -> exists q, cond_node opt a b = Ok (mk q t).
Proof.
  intros sa sb t a b GA GB H. pose proof (fit_n _ _ GA) as FA. pose proof (fit_n _ _ GB) as FB. unfold cond_node.
  assert (NV : forall n q t, rp n q t -> is_void (nt n) = false /\ is_numeric (nt n) = false).
  { intros n q u [E | A B | F E Q ->]; [rewrite E; auto | destruct (nt n); try discriminate; auto..]. }
  assert (PT : forall n q t, rp n q t -> is_func (nt n) = false -> array_to_pointer (nt n) = CPtr q t).
  { intros n q u R F. pose proof (rp_deco _ _ _ R) as [_ E]. unfold deco in E. rewrite F in E. exact E. }
  assert (CV : forall q u p v x, rp a q u -> rp b p v -> get_common_type a b true = Ok (x, a, b) -> is_flonum x = false ->
    exists q, (do x <- usual_arith_conv a b true; Ok (mk (nq (fst x)) (nt (fst x)))) = Ok (mk q x)).
  { intros q u p v x RA RB E F. destruct (conv_of a b x E F (rp_cast _ _ _ _ RA F) (rp_cast _ _ _ _ RB F)) as (a' & b' & U & T).
    rewrite U. cbn [bind fst]. rewrite T. eauto. }
  destruct H as [sa sb t A B U | sa sb i A B | sa sb A B | sa sb q t p u V W NA NB C PA PB FF Q | sa sb q t V N PA
    | sa sb q t N V PB | sa sb q t p u V W NA NB VV FT FU Q].
  - rewrite (g_t _ _ GA), (g_t _ _ GB).
    replace (is_void (st sa)) with false by (destruct (st sa); try discriminate; reflexivity).
    replace (is_void (st sb)) with false by (destruct (st sb); try discriminate; reflexivity).
    rewrite <- arith_is, A. cbn [orb negb andb]. rewrite <- (g_t _ _ GA) in A. rewrite <- (g_t _ _ GB) in B.
    rewrite <- (num_eq _ _ GA), <- (num_eq _ _ GB) in U.
    destruct (conv_ok a b t A B FA FB U true) as (a' & b' & E & T). rewrite E. cbn [bind fst]. rewrite T. eauto.
  - rewrite (g_t _ _ GA), (g_t _ _ GB), A, B. cbn [is_void orb is_numeric is_integer is_flonum negb andb].
    rewrite ceq_refl. cbn [array_to_pointer]. eauto.
  - rewrite (g_t _ _ GA), A. cbn [is_void orb]. eauto.
  - pose proof (value_rp _ _ _ _ GA PA V) as RA. pose proof (value_rp _ _ _ _ GB PB W) as RB.
    destruct (NV _ _ _ RA) as (V1 & N1), (NV _ _ _ RB) as (V2 & N2). rewrite V1, V2, N1. cbn [orb negb andb].
    destruct Q as [Q | (Q1 & Q2)]; [discriminate|]. rewrite Q1, Q2.
    rewrite <- (g_null _ _ GA) in NA. rewrite <- (g_null _ _ GB) in NB.
    destruct (ceq (nt a) (nt b)) eqn:E.
    + assert (F : is_func (nt a) = false).
      { destruct FF as [FF | FF]; [discriminate|]. destruct (is_func (nt a)) eqn:F; [|reflexivity]. exfalso.
        rewrite <- (g_t _ _ GA), <- (g_t _ _ GB), !func_is, F in FF. destruct (nt a); try discriminate. destruct (nt b); discriminate. }
      rewrite (PT _ _ _ RA F). eauto.
    + destruct (common_rp _ _ _ _ _ _ RA RB) as (v & E1 & F & C1 & _). rewrite (compat_ceq _ _ C) in C1.
      rewrite (C1 NA NB) in *. eapply CV; eassumption.
  - pose proof (value_rp _ _ _ _ GA PA V) as RA. rewrite <- (g_null _ _ GB) in N. destruct (NV _ _ _ RA) as (V1 & N1).
    rewrite V1, N1. replace (is_void (nt b)) with false by (destruct (null_shape _ N) as [I | (x & ->)]; [destruct (nt b); try discriminate|]; reflexivity).
    cbn [orb negb andb]. destruct (ceq (nt a) (nt b)) eqn:E.
    + assert (F : is_func (nt a) = false).
      { destruct (null_shape _ N) as [I | (x & E2)]; [|rewrite E2 in E]; destruct (nt a); try discriminate; try reflexivity. destruct (nt b); discriminate. }
      rewrite (PT _ _ _ RA F). eauto.
    + destruct (conv_of a b _ (common_null_r _ _ _ _ RA N) eq_refl (rp_castp _ _ _ _ _ RA) (null_castp _ _ _ N)) as (a' & b' & U & T).
      rewrite U. cbn [bind fst]. rewrite T. eauto.
  - pose proof (value_rp _ _ _ _ GB PB V) as RB. rewrite <- (g_null _ _ GA) in N. destruct (NV _ _ _ RB) as (V2 & N2).
    rewrite V2. replace (is_void (nt a)) with false by (destruct (null_shape _ N) as [I | (x & ->)]; [destruct (nt a); try discriminate|]; reflexivity).
    cbn [orb]. destruct (null_shape _ N) as [I | (x & T)].
    + replace (is_numeric (nt a)) with true by (destruct (nt a); try discriminate; reflexivity). cbn [negb andb].
      destruct (conv_of a b _ (common_null_l _ _ _ _ RB N I) eq_refl (null_castp _ _ _ N) (rp_castp _ _ _ _ _ RB)) as (a' & b' & U & T).
      rewrite U. cbn [bind fst]. rewrite T. eauto.
    + assert (RA : rp a x CVoid) by (apply rp_ptr; exact T). destruct (NV _ _ _ RA) as (V1 & N1). rewrite N1. cbn [negb andb].
      destruct (ceq (nt a) (nt b)) eqn:E.
      * rewrite T in E |- *. cbn [array_to_pointer]. destruct RB as [RB | RA1 RA2 | RF _ _ _].
        -- rewrite RB in E. cbn [ceq] in E. apply andb_true_iff in E. destruct E as [E1 E2]. apply same_quals_eq in E1.
           destruct t; try discriminate. subst. eauto.
        -- destruct (nt b); discriminate.
        -- destruct (nt b); discriminate.
      * destruct (common_rp _ _ _ _ _ _ RA RB) as (v & E1 & F & _ & C2 & C3).
        destruct (is_nullptr b) eqn:NB; [|rewrite (C3 N eq_refl) in *; eapply CV; eassumption].
        rewrite (C2 eq_refl) in *.
        destruct (null_shape _ NB) as [I | (y & T2)].
        { exfalso. destruct RB as [RB | RA1 RA2 | RF _ _ _]; destruct (nt b); discriminate. }
        rewrite (g_null _ _ GA) in N. rewrite (g_null _ _ GB) in NB. exfalso.
        destruct (g_nv _ _ GA N) as [I | E3]; [rewrite <- (g_t _ _ GA), T in I; discriminate|].
        destruct (g_nv _ _ GB NB) as [I | E4]; [rewrite <- (g_t _ _ GB), T2 in I; discriminate|].
        rewrite (g_t _ _ GA), (g_t _ _ GB), E3, E4, ceq_refl in E. discriminate.
  - destruct Q as [Q | Q]; [discriminate|]. rewrite Q.
    destruct (value_raw _ _ _ _ GA V FT) as (q1 & t1 & R1 & F1 & W1), (value_raw _ _ _ _ GB W FU) as (q2 & t2 & R2 & F2 & W2).
    assert (D : ceq t1 t2 = false).
    { destruct VV as [(-> & NU) | (NT & ->)].
      - rewrite (proj2 W1 eq_refl). destruct t2; try reflexivity. exfalso. apply NU, W2. reflexivity.
      - rewrite (proj2 W2 eq_refl). destruct t1; try reflexivity. exfalso. apply NT, W1. reflexivity. }
    rewrite <- (g_null _ _ GA) in NA. rewrite <- (g_null _ _ GB) in NB.
    destruct (NV _ _ _ R1) as (V1 & N1), (NV _ _ _ R2) as (V2 & N2). rewrite V1, V2, N1. cbn [orb negb andb].
    replace (ceq (nt a) (nt b)) with false.
    2:{ symmetry. rewrite func_is in F1, F2. pose proof (rp_base _ _ _ R1) as B1. pose proof (rp_base _ _ _ R2) as B2.
        rewrite func_is in B1, B2. specialize (B1 F1). specialize (B2 F2). clear - B1 B2 D.
        destruct (nt a), (nt b); try discriminate; try reflexivity; cbn [base] in B1, B2; injection B1 as -> ->; injection B2 as -> ->;
          cbn [ceq]; rewrite D; rewrite ?andb_false_r; reflexivity. }
    destruct (common_rp _ _ _ _ _ _ R1 R2) as (v & E1 & F & C1 & _). rewrite D in C1. rewrite (C1 NA NB) in *. eapply CV; eassumption.
Qed.

(** * Assignment *)
Lemma assign_ok : forall l r s t, good r s -> nt l = t -> assignable t s ->
  assign_node opt l r = Ok (Node (nq l) t (nbf l) false false None false).
Proof.
  intros l r s t G T A.
  assert (K : invalid_cast (nt r) t = false -> match t with CArr _ _ _ | CRec _ => false | _ => true end = true ->
    assign_node opt l r = Ok (Node (nq l) t (nbf l) false false None false)).
  { intros V N. destruct (cast_ok r t V) as (c & E & _). unfold assign_node. rewrite T. destruct t; try discriminate; rewrite E; reflexivity. }
  destruct A as [A B | i -> B | q a p b -> V Q C | q a -> N | q a -> V].
  - apply K.
    + apply arith_valid'. rewrite (g_t _ _ G). unfold TypSpec.value in B. destruct (st s); try exact B; try discriminate;
        destruct (push (sq s) q c); discriminate.
    + destruct t; try discriminate; reflexivity.
  - unfold assign_node. rewrite T. reflexivity.
  - destruct (value_some _ _ _ _ G V) as (x & y & R). apply K; [apply (rp_castp _ _ _ _ _ R) | reflexivity].
  - rewrite <- (g_null _ _ G) in N. apply K; [apply (null_castp _ _ _ N) | reflexivity].
  - destruct (value_some _ _ _ _ G V) as (x & y & R). apply K; [apply (rp_cast _ _ _ _ R); reflexivity | reflexivity].
Qed.
Definition kept (n l : node) : Prop := nt n = nt l /\ nq n = nq l /\ nbf n = nbf l /\ ncast n = None.
Lemma to_assign_ok : forall op l r, scalar (nt l) = true -> (q_atomic (nq l) = true -> nbf l = None) -> arith (nt r) = true ->
  (exists b, op (mk (nq l) (nt l)) (mk (nq r) (nt r)) = Ok b /\ invalid_cast (nt b) (nt l) = false) ->
  exists n, to_assign opt op l r = Ok n /\ kept n l.
Proof.
  intros op l r S A R (b & E & V). unfold to_assign. destruct (q_atomic (nq l)) eqn:Q.
  - assert (AR : assign_node opt (mk (nq r) (nt r)) r = Ok (mk (nq r) (nt r))).
    { unfold assign_node. cbn [mk nt nq nbf]. destruct (cast_ok r (nt r)) as (c & C & _); [apply arith_valid', R|].
      destruct (nt r); try discriminate; rewrite C; reflexivity. }
    assert (AL : assign_node opt (mk (nq l) (nt l)) b = Ok (mk (nq l) (nt l))).
    { unfold assign_node. cbn [mk nt nq nbf]. destruct (cast_ok b (nt l) V) as (c & C & _).
      destruct (nt l); try discriminate; rewrite C; reflexivity. }
    rewrite AR. cbn [bind]. rewrite E. cbn [bind]. rewrite AL. cbn [bind].
    eexists. split; [reflexivity|]. unfold kept. cbn [mk nt nq nbf ncast]. rewrite (A eq_refl).
    repeat split. destruct (nt l); try discriminate; reflexivity.
  - eexists. split; [reflexivity|]. unfold kept. auto.
Qed.
Lemma assign_add_num : forall l r, arith (nt l) = true -> arith (nt r) = true -> (q_atomic (nq l) = true -> nbf l = None) ->
  exists n, assign_add opt l r = Ok n /\ kept n l.
Proof.
  intros l r A B Q. unfold assign_add. rewrite <- !arith_is, A, B. cbn [andb].
  apply to_assign_ok; [unfold scalar; rewrite A; reflexivity | exact Q | exact B |].
  destruct (arith_node_some (mk (nq l) (nt l)) (mk (nq r) (nt r))) as (q & t & E & AT & _); try assumption; try reflexivity.
  rewrite E. eexists. split; [reflexivity|]. apply arith_valid', AT.
Qed.
Lemma assign_add_ptr : forall l r q t, nt l = CPtr q t -> integer (nt r) = true -> fits (nt r) (nbf r) = true ->
  (q_atomic (nq l) = true -> nbf l = None) -> exists n, assign_add opt l r = Ok n /\ kept n l.
Proof.
  intros l r q t T I F Q. unfold assign_add, TypModel.fun_cast. rewrite T. cbn [is_numeric is_integer is_flonum orb andb is_func bind].
  assert (FR : is_func (nt r) = false) by (destruct (nt r); try discriminate; reflexivity). rewrite FR. cbn [bind].
  rewrite T. cbn [base]. rewrite <- integer_is, I. destruct (scaled_ok r t I F) as (p & u & E & IU). rewrite E. cbn [bind].
  apply to_assign_ok; [rewrite T; reflexivity | exact Q | apply integer_arith, IU |].
  destruct (add_node_l (mk (nq l) (nt l)) (mk p u) q t) as (x & X); [cbn [mk nt]; rewrite T; reflexivity|].
  cbn [mk nq nt] in *. rewrite X. eexists. split; [reflexivity|]. rewrite T. reflexivity.
Qed.
Lemma compound_ok : forall o sa sb a b, good a sa -> good b sb -> modifiable defined sa -> compound defined o sa sb ->
  exists n, op_assign opt o a b = Ok n /\ kept n a.
Proof.
  intros o sa sb a b GA GB M H. pose proof (fit_n _ _ GB) as FB.
  assert (Q : q_atomic (nq a) = true -> nbf a = None).
  { destruct M as (L & _ & _ & _ & M). rewrite (g_q _ _ GA L), (g_bf _ _ GA). exact M. }
  destruct H as [o sa sb IO A B | o sa sb IO A B | o sa sb q t IO T OB I];
    rewrite <- ?(g_t _ _ GA) in *; rewrite <- ?(g_t _ _ GB) in *.
  - assert (AN : exists n, to_assign opt arith_node a b = Ok n /\ kept n a).
    { apply to_assign_ok; [unfold scalar; rewrite A; reflexivity | exact Q | exact B |].
      destruct (arith_node_some (mk (nq a) (nt a)) (mk (nq b) (nt b))) as (q & t & E & AT & _); try assumption; try reflexivity.
      rewrite E. eexists. split; [reflexivity|]. apply arith_valid', AT. }
    cbn [In] in IO. destruct IO as [<- | [<- | [<- | [<- | []]]]]; cbn [op_assign]; try exact AN; apply assign_add_num; assumption.
  - assert (AN : exists n, to_assign opt arith_node a b = Ok n /\ kept n a).
    { apply to_assign_ok; [unfold scalar; rewrite (integer_arith _ A); reflexivity | exact Q | apply integer_arith, B |].
      destruct (arith_node_some (mk (nq a) (nt a)) (mk (nq b) (nt b))) as (q & t & E & AT & _);
        try (apply integer_arith; assumption); try reflexivity.
      rewrite E. eexists. split; [reflexivity|]. apply arith_valid', AT. }
    assert (SN : exists n, to_assign opt (shift_node opt) a b = Ok n /\ kept n a).
    { apply to_assign_ok; [unfold scalar; rewrite (integer_arith _ A); reflexivity | exact Q | apply integer_arith, B |].
      unfold shift_node. cbn [mk nt]. rewrite <- (integer_is (nt a)), <- (integer_is (nt b)), A, B. cbn [negb].
      destruct (promotion_ok (mk (nq a) (nt a))) as (m & E & T); [exact A | reflexivity |]. rewrite E. cbn [bind].
      eexists. split; [reflexivity|]. cbn [nt]. rewrite T. apply arith_valid', integer_arith, int_num; [exact A | reflexivity]. }
    cbn [In] in IO. destruct IO as [<- | [<- | [<- | [<- | [<- | [<- | []]]]]]]; cbn [op_assign]; assumption.
  - assert (AN : exists n, assign_add opt a b = Ok n /\ kept n a) by (eapply assign_add_ptr; eassumption).
    cbn [In] in IO. destruct IO as [<- | [<- | []]]; exact AN.
Qed.
Lemma step_ok : forall s a, good a s -> modifiable defined s -> steps defined s ->
  (exists n, assign_add opt a (mk noq ty_int) = Ok n /\ kept n a) /\
  (exists n, new_inc_dec opt a = Ok n /\ nt n = nt a /\ nbf n = nbf a).
Proof.
  intros s a G M H. pose proof (fit_n _ _ G) as F.
  assert (Q : q_atomic (nq a) = true -> nbf a = None).
  { destruct M as (L & _ & _ & _ & M). rewrite (g_q _ _ G L), (g_bf _ _ G). exact M. }
  assert (MB : nbf a <> None -> is_bitfield a = true).
  { intro N. unfold is_bitfield. rewrite (g_mem _ _ G); [|apply M | rewrite <- (g_bf _ _ G); exact N]. destruct (nbf a); [reflexivity | congruence]. }
  assert (AS : forall n, nt n = nt a -> (q_atomic (nq n) = true -> nbf n = None) -> fits (nt n) (nbf n) = true ->
    (exists m, assign_add opt n (mk noq ty_int) = Ok m /\ kept m n) /\
    (exists m, new_add n (mk noq ty_int) = Ok m /\ invalid_cast (nt m) (nt a) = false)).
  { intros n T Q' F'. destruct H as [A | (q & t & P & OB)].
    - rewrite <- (g_t _ _ G), <- T in A. split; [apply assign_add_num; [exact A | reflexivity | exact Q']|].
      assert (X : new_add n (mk noq ty_int) = arith_node n (mk noq ty_int)).
      { unfold TypModel.new_add. rewrite <- !arith_is, A. reflexivity. }
      rewrite X. destruct (arith_node_some n (mk noq ty_int)) as (q & t & E & AT & _); [exact A | reflexivity | exact F' | reflexivity |].
      rewrite E. eexists. split; [reflexivity|]. apply arith_valid', AT.
    - rewrite <- (g_t _ _ G) in P. split; [eapply assign_add_ptr; [rewrite T; exact P | reflexivity | reflexivity | exact Q']|].
      destruct (new_add_pi n (mk noq ty_int) q t) as (p & E); [rewrite T, P; reflexivity | reflexivity | reflexivity |].
      rewrite E. eexists. split; [reflexivity|]. rewrite P. reflexivity. }
  destruct (AS a eq_refl Q F) as [X (m & Y & V)]. split; [exact X|]. destruct X as (n & E & K1 & K2 & K3 & K4).
  unfold new_inc_dec. destruct (q_atomic (nq a)) eqn:QA.
  { exists n. auto. }
  destruct (opt && negb match nt a with CBool => true | _ => false end && negb (is_bitfield a) && negb (is_flonum (nt a))) eqn:O.
  - rewrite E. cbn [bind]. destruct (AS n K1) as [_ (m' & Y' & V')].
    { rewrite K2, K3, QA. exact Q. }
    { rewrite K1, K3. exact F. }
    rewrite Y'. cbn [bind].
    assert (NB : nbf a = None).
    { destruct (nbf a) eqn:B; [|reflexivity]. rewrite MB in O by discriminate. rewrite andb_false_r in O. discriminate. }
    assert (NM : nbf m' = None).
    { clear - Y'. unfold TypModel.new_add in Y'.
      assert (A : forall x y z, arith_node x y = Ok z -> nbf z = None).
      { intros x y z H. unfold TypModel.arith_node in H. destruct (usual_arith_conv x y false); [|discriminate]. cbn [bind] in H. injection H as <-. reflexivity. }
      assert (B : forall x y z, add_node x y = Ok z -> nbf z = None).
      { intros x y z H. unfold TypModel.add_node in H.
        assert (P : forall n w, match nt n with CPtr _ _ => Ok (mk (nq n) (nt n)) | _ => match base (nt n) with
           | Some (q, u) => do c <- new_cast n (CPtr q u); Ok (mk (nq c) (nt c)) | None => Err end end = Ok w -> nbf w = None).
        { intros n0 w H0. destruct (nt n0) as [| | | | | |q0 t0|len0 q0 t0|q0 t0|]; cbn [base] in H0; try discriminate; [injection H0 as <-; reflexivity | |];
            (destruct (new_cast n0 (CPtr q0 t0)); [|discriminate]); cbn [bind] in H0; injection H0 as <-; reflexivity. }
        destruct (has_base (nt x)); [exact (P _ _ H)|]. destruct (has_base (nt y)); [exact (P _ _ H)|]. exact (A _ _ _ H). }
      destruct (is_numeric (nt n) && is_numeric (nt (mk noq ty_int))); [exact (A _ _ _ Y')|].
      destruct (fun_cast n) as [l|]; [|discriminate]. cbn [bind] in Y'. destruct (fun_cast (mk noq ty_int)) as [r|]; [|discriminate]. cbn [bind] in Y'.
      destruct (is_integer (nt l)).
      - destruct (base (nt l)); [discriminate|]. destruct (base (nt r)) as [[x y]|]; [|discriminate].
        destruct (scaled l y); [|discriminate]. exact (B _ _ _ Y').
      - destruct (is_integer (nt r)); [|discriminate]. destruct (base (nt l)) as [[x y]|]; [|discriminate].
        destruct (scaled r y); [|discriminate]. exact (B _ _ _ Y'). }
    destruct (cast_bf m' (nt a) V' (or_introl NM)) as (c & C1 & C2 & C3 & C4). exists c. rewrite NB. auto.
  - rewrite Y. cbn [bind]. eexists. split; [reflexivity|]. auto.
Qed.

(** * Members *)
Lemma find_names : forall s m r, find_mem s m = Some r -> In s (names m).
Proof.
  intros s. fix IH 1. intros [s' q t w | q i l] r H; cbn [find_mem names] in *.
  - destruct (String.eqb_spec s' s); [left; assumption | discriminate].
  - destruct (first (find_mem s) l) as [[p f]|] eqn:E; [|discriminate]. clear H. revert p f E.
    induction l as [|x l IHl]; intros p f E; [discriminate|]. cbn [first flat_map] in *. apply in_or_app.
    destruct (find_mem s x) eqn:X; [left; exact (IH x _ X) | right; exact (IHl _ _ E)].
Qed.
Lemma nodup_app : forall (A : Type) (l m : list A), NoDup (l ++ m) -> NoDup l /\ NoDup m /\ forall x, In x l -> In x m -> False.
Proof.
  induction l as [|a l IH]; cbn [app]; intros m H; [split; [constructor | split; [exact H | intros x []]]|].
  inversion H as [|x y N D]; subst. destruct (IH m D) as (A1 & A2 & A3). split; [constructor; [|exact A1] | split; [exact A2|]].
  - intro I. apply N, in_or_app. auto.
  - intros x [<- | I] J; [apply N, in_or_app; auto | eauto].
Qed.
Lemma first_in : forall s l m r, NoDup (flat_map names l) -> In m l -> find_mem s m = Some r -> first (find_mem s) l = Some r.
Proof.
  intros s l m r. induction l as [|x l IH]; intros D I F; [contradiction|]. cbn [flat_map first] in *.
  destruct (nodup_app _ _ _ D) as (D1 & D2 & D3). destruct I as [-> | I]; [rewrite F; reflexivity|].
  destruct (find_mem s x) eqn:X; [|apply IH; assumption]. exfalso. apply (D3 s); [exact (find_names _ _ _ X)|].
  apply in_flat_map. exists m. split; [exact I | exact (find_names _ _ _ F)].
Qed.
Lemma nodup_in : forall l m, NoDup (flat_map names l) -> In m l -> NoDup (names m).
Proof.
  induction l as [|x l IH]; intros m D I; [contradiction|]. cbn [flat_map] in D. destruct (nodup_app _ _ _ D) as (D1 & D2 & _).
  destruct I as [-> | I]; auto.
Qed.
Lemma cv_add : forall q p, cv (add_cv q p) = cv q || cv p.
Proof. intros [a c v r] [a' c' v' r']. unfold cv, add_cv. cbn. destruct c, v, c', v'; reflexivity. Qed.
Lemma member_found : forall l s n p f, is_member l s n p f -> NoDup (flat_map names l) ->
  exists ps, get_struct_member s l = Some (ps, f) /\ (n = false -> ps = [] /\ p = noq) /\ (cv p = false -> forall x, In x ps -> cv x = false).
Proof.
  intros l s n p f H. induction H as [l s q t w I F FN | l q i m s a p f I H IH]; intro D.
  - exists []. split; [|split; [auto | intros _ x []]]. apply (first_in _ _ _ _ D I). cbn [find_mem]. rewrite String.eqb_refl. reflexivity.
  - destruct (IH (nodup_in _ _ D I)) as (ps & E & _ & C). exists (q :: ps).
    split; [|split; [discriminate|]].
    + apply (first_in _ _ _ _ D I). cbn [find_mem]. unfold get_struct_member in E. rewrite E. reflexivity.
    + intros N. rewrite cv_add in N. apply orb_false_iff in N. destruct N as [N1 N2].
      intros x [<- | J]; [exact N1 | exact (C N2 x J)].
Qed.
Lemma member_wf : forall l s n p q t w, is_member l s n p (q, t, w) -> fits t w = true /\ func t = false.
Proof.
  intros l s n p q t w H. remember (q, t, w) as f eqn:E. induction H as [l s q' t' w' I F FN | l q' i m s a p f I H IH]; [|auto].
  injection E as -> -> ->. auto.
Qed.
Lemma apply_plain : forall n q, cv q = false -> apply_cv_qualifier n q = n.
Proof.
  intros n q H. unfold apply_cv_qualifier. apply orb_false_iff in H. destruct H as [H1 H2]. rewrite H1, H2, !andb_false_r. reflexivity.
Qed.
Lemma apply_add : forall n q, q_atomic (nq n) = false -> q_restrict (nq n) = false ->
  nq (apply_cv_qualifier n q) = add_cv q (nq n).
Proof.
  intros [p t w m z c k] q A R. cbn [nq] in *. unfold apply_cv_qualifier, add_cv. cbn [nq]. rewrite A, R.
  destruct p as [a pc pv r], q as [a' qc qv r']. cbn in *. subst. destruct pc, pv, qc, qv; reflexivity.
Qed.
Lemma apply_same : forall n q, nt (apply_cv_qualifier n q) = nt n /\ nbf (apply_cv_qualifier n q) = nbf n /\
  nmem (apply_cv_qualifier n q) = nmem n /\ ncast (apply_cv_qualifier n q) = ncast n.
Proof. intros n q. unfold apply_cv_qualifier. destruct (_ || _); auto. Qed.

(** * Expressions *)
Definition at_ (e : cx) (n : node) : node := Node (nq n) (nt n) (nbf n) (nmem n) (zero e) (ncast n) (ncmp n).
Lemma at_good : forall e n l q t w, nt n = t -> (l = true -> nq n = q) -> nbf n = w ->
  (ncast n = None \/ forall p, t <> CPtr p CVoid) -> (l = true -> w <> None -> nmem n = true) ->
  (l = false -> array t = false /\ func t = false) -> (func t = true -> nq n = noq) -> fits t w = true ->
  good (at_ e n) (St l q t w (integer t && zero e)).
Proof.
  intros e n l q t w T Q B C M R F W. subst t w. split; cbn [at_ nt nq nbf nmem lv sq st sbf snull]; auto.
  - unfold is_nullptr. cbn [at_ nt ncast nzero].
    destruct (ncast n) as [b|]; [|reflexivity]. destruct C as [C | C]; [discriminate|].
    destruct (nt n) as [| | | | | |q0 t0| | |]; try reflexivity. destruct t0; try reflexivity. exfalso. exact (C _ eq_refl).
  - intro H. left. apply andb_true_iff in H. apply H.
Qed.
Lemma rv_good : forall e n t w, nt n = t -> nbf n = w -> (ncast n = None \/ forall p, t <> CPtr p CVoid) ->
  array t = false -> func t = false -> fits t w = true -> good (at_ e n) (rvalue t w (integer t && zero e)).
Proof.
  intros e n t w T B C A F W. apply at_good; auto; try discriminate. intro X. congruence.
Qed.
Definition args_of (v : bool) : list cx -> list (quals * ctype) -> res unit :=
  fix args (l : list cx) (ps : list (quals * ctype)) {struct l} : res unit :=
  match l, ps with
  | [], [] => Ok tt
  | [], _ :: _ => Err
  | x :: l, (q, t) :: ps => do b <- elab x; do c <- assign_node opt (mk q t) b; args l ps
  | x :: l, [] => if v then do b <- elab x; args l [] else Err
  end.
Definition assocs_of (a : node) : list (option (quals * ctype) * cx) -> option node -> res (option node) :=
  fix assocs (l : list (option (quals * ctype) * cx)) (ret : option node) {struct l} : res (option node) :=
  match l with
  | [] => Ok ret
  | (None, x) :: l => do n <- elab x; assocs l (match ret with Some _ => ret | None => Some n end)
  | (Some (q, t), x) :: l =>
      if is_func t then Err
      else do n <- elab x; assocs l (if same_quals noq q && ceq (ctrl_type a) t then Some n else ret)
  end.
Lemma elab_call : forall f l, elab (XCall f l) =
  do n <- (do a <- elab f;
           match (match nt a with CPtr _ t => t | t => t end) with
           | CFun r v ps => do u <- args_of v l ps; Ok (mk noq r)
           | _ => Err
           end); Ok (at_ (XCall f l) n).
Proof. reflexivity. Qed.
Lemma elab_generic : forall c l, elab (XGeneric c l) =
  do a <- elab c; do r <- assocs_of a l None; match r with Some n => Ok n | None => Err end.
Proof. reflexivity. Qed.

Lemma assocs_app : forall a l m ret, assocs_of a (l ++ m) ret = do r <- assocs_of a l ret; assocs_of a m r.
Proof.
  intros a l m. induction l as [|[[[q t]|] x] l IH]; intro ret; [reflexivity | |]; cbn [app assocs_of].
  - destruct (is_func t); [reflexivity|]. destruct (elab x); [|reflexivity]. cbn [bind]. apply IH.
  - destruct (elab x); [|reflexivity]. cbn [bind]. apply IH.
Qed.
Definition assoc_ok (l : list (option (quals * ctype) * cx)) : Prop :=
  forall o x, In (o, x) l -> (exists n, elab x = Ok n) /\ match o with Some (_, u) => func u = false /\ plain u | None => True end.
Definition nomatch (T : ctype) (l : list (option (quals * ctype) * cx)) : Prop :=
  forall q u x, In (Some (q, u), x) l -> same_quals noq q && ceq T u = false.
Lemma assocs_nomatch : forall a l, assoc_ok l -> nomatch (ctrl_type a) l ->
  (forall n, assocs_of a l (Some n) = Ok (Some n)) /\ (exists r, assocs_of a l None = Ok r) /\
  ((forall x, ~ In (None, x) l) -> assocs_of a l None = Ok None).
Proof.
  intros a l. induction l as [|[[[q t]|] x] l IH]; intros A N; [split; [reflexivity | split; [eexists; reflexivity | reflexivity]] | |]; cbn [assocs_of];
    (destruct IH as (I1 & I2 & I3); [intros o y J; apply A; right; exact J | intros q' u y J; apply (N q' u y); right; exact J |]);
    destruct (A _ _ (or_introl eq_refl)) as ((n & E) & F).
  - destruct F as [F _]. rewrite func_is in F. rewrite F, E. cbn [bind]. rewrite (N q t x (or_introl eq_refl)).
    split; [exact I1 | split; [exact I2|]]. intro D. apply I3. intros y J. apply (D y). right. exact J.
  - rewrite E. cbn [bind]. split; [exact I1 | split; [rewrite I1; eauto|]]. intro D. exfalso. exact (D x (or_introl eq_refl)).
Qed.
Lemma nomatch_of : forall T l, plain T -> assoc_ok l -> (forall q u x, In (Some (q, u), x) l -> ~ (q = noq /\ compat T u)) -> nomatch T l.
Proof.
  intros T l P A H q u x I. destruct (same_quals noq q && ceq T u) eqn:E; [|reflexivity]. exfalso.
  apply andb_true_iff in E. destruct E as [E1 E2]. apply same_quals_eq in E1. apply (H q u x I). split; [congruence|].
  apply ceq_compat; [exact P | apply (A _ _ I) | exact E2].
Qed.
Lemma ctrl_value : forall n s, good n s -> plain_value false s -> ctrl_type n = value s.
Proof.
  intros n s G P. unfold ctrl_type. rewrite (g_t _ _ G). unfold TypSpec.value. pose proof (g_fn _ _ G) as F.
  destruct P as [P | P]; [discriminate|]. destruct (st s); try reflexivity; cbn [array andb] in P.
  - apply negb_true_iff in P. rewrite push_plain by exact P. reflexivity.
  - apply negb_true_iff in P. rewrite push_plain by exact P. reflexivity.
  - rewrite (F eq_refl). reflexivity.
Qed.
Lemma object_size : forall t, object defined t = true -> size rsize t <? 0 = false.
Proof.
  intros t H. apply Z.ltb_ge. induction t; cbn [object size] in *; try discriminate; try (cbv; discriminate); auto.
  - destruct k; cbv; discriminate.
  - destruct k; cbv; discriminate.
  - destruct k; cbv; discriminate.
  - destruct len as [n|]; [|discriminate]. apply andb_true_iff in H. destruct H as [H1 H2]. apply Z.leb_le in H1. specialize (IHt H2). lia.
Qed.

(** [value] of arrays whose qualifiers are added afterwards (parse.c 4008, 4025, 3659). *)
Lemma from_array_ok : forall n s q t m, good n s -> lv s = true \/ array (st s) = false -> value s = CPtr q t -> func t = false \/ func (st s) = false ->
  (array (st s) = true -> base (st s) = Some (nq m, nt m)) -> (array (st s) = false -> nq m = q /\ nt m = t) ->
  only false (negb (array (st s) && cv (sq s) && (array t || q_atomic q || q_restrict q))) ->
  nq (from_array n m) = q /\ nt (from_array n m) = t /\ nbf (from_array n m) = nbf m /\ ncast (from_array n m) = ncast m.
Proof.
  intros n s q t m G L V F A B O. unfold from_array. rewrite (g_t _ _ G), <- array_is.
  destruct (array (st s)) eqn:AR; [|destruct (B eq_refl) as [-> ->]; auto].
  destruct (apply_same m (nq n)) as (S1 & S2 & S3 & S4). rewrite S1, S2, S4.
  destruct L as [L | L]; [|discriminate]. rewrite (g_q _ _ G L).
  destruct (value_cases s q t V) as [E | [(_ & p & u & BB & U) | (FF & _)]].
  - rewrite E in AR. discriminate.
  - rewrite (A eq_refl) in BB. injection BB as <- <-. destruct O as [O | O]; [discriminate|]. cbn [andb] in O.
    destruct (cv (sq s)) eqn:C.
    + cbn [andb] in O. apply negb_true_iff in O. apply orb_false_iff in O. destruct O as [O O3]. apply orb_false_iff in O. destruct O as [O1 O2].
      assert (NA : push (sq s) (nq m) (nt m) = (add_cv (sq s) (nq m), nt m)).
      { revert U O1. generalize (nq m). destruct (nt m); intros x U O1; try reflexivity; cbn [push] in *;
          destruct (push (sq s) q0 c) as [y1 y2]; injection U as <- <-; discriminate. }
      rewrite NA in U. injection U as <- <-. cbn [add_cv q_atomic q_restrict] in O2, O3.
      rewrite apply_add by assumption. auto.
    + rewrite push_plain in U by exact C. injection U as <- <-. rewrite apply_plain by exact C. auto.
  - destruct (st s); discriminate.
Qed.

Lemma binary_type : forall o a b t, fits (st a) (sbf a) = true -> fits (st b) (sbf b) = true -> binary defined false o a b t ->
  arith t = true \/ exists p u, t = CPtr p u.
Proof.
  intros o a b t W1 W2 H. destruct H; try (left; reflexivity); try (right; eauto; fail).
  - left. destruct (uac_def _ _ H0 H1 _ _ W1 W2) as (t' & U & AT & _). unfold num in H2. congruence.
  - left. destruct (uac_def _ _ (integer_arith _ H0) (integer_arith _ H1) _ _ W1 W2) as (t' & U & AT & _). unfold num in H2. congruence.
  - left. unfold num. destruct (promo_wide _ _ H0 W1) as (k & u & -> & _). reflexivity.
Qed.
Lemma fits_num : forall t w, fits t w = true -> w = None \/ arith t = true.
Proof. intros t [w|] H; [destruct t; try discriminate; auto | auto]. Qed.
(** The pointer below [value], without the qualifiers of an array. *)
Lemma value_below : forall n s q t, good n s -> value s = CPtr q t -> func (st s) = false ->
  exists p u, rp n p u /\ (u = CVoid <-> t = CVoid) /\ (array (st s) = true -> base (st s) = Some (p, u)) /\
    (array (st s) = false -> p = q /\ u = t) /\ base (nt n) = Some (p, u) /\ (forall i, t = CRec i -> u = CRec i).
Proof.
  intros n s q t G V F. destruct (value_cases s q t V) as [E | [(A & p & u & B & U) | (FF & _)]]; [| |congruence].
  - exists q, t. rewrite (g_t _ _ G), E. cbn [array base]. split; [apply rp_ptr; rewrite (g_t _ _ G); exact E|].
    repeat split; auto; discriminate.
  - exists p, u. rewrite (g_t _ _ G). split; [apply rp_arr; rewrite (g_t _ _ G); [rewrite <- array_is; exact A | exact B]|].
    pose proof (push_void (sq s) p u) as [X Y]. rewrite U in X. cbn [snd] in X. split; [tauto|]. split; [auto|]. split; [congruence|].
    split; [exact B|]. intros i ->. destruct u; cbn [push] in U; try (injection U as _ U; discriminate U); try (injection U as _ <-; reflexivity);
      destruct (push (sq s) q0 u); discriminate.
Qed.
Lemma lv_array : forall n s, good n s -> lv s = true \/ array (st s) = false.
Proof. intros n s G. destruct (lv s) eqn:L; [auto|]. right. apply (g_rv _ _ G L). Qed.
Lemma struct_ref_ok : forall n i s m p q t w r, nt n = CRec i -> is_member (members i) s m p (q, t, w) -> nq n = r ->
  negb (cv (add_cv r p) && (m || q_atomic q || q_restrict q)) = true ->
  exists k, struct_ref members n s = Ok k /\ nt k = t /\ nbf k = w /\ nmem k = true /\ ncast k = None /\ nq k = add_cv (add_cv r p) q.
Proof.
  intros n i s m p q t w r T M Q O. unfold struct_ref. rewrite T.
  destruct (member_found _ _ _ _ _ M (unique i)) as (ps & E & E1 & E2). rewrite E.
  destruct (apply_same (Node q t w true false None false) (last ps (nq n))) as (S1 & S2 & S3 & S4).
  eexists. split; [reflexivity|]. rewrite S1, S2, S3, S4. repeat (split; [reflexivity|]). rewrite Q.
  destruct (cv (add_cv r p)) eqn:C.
  - cbn [andb] in O. apply negb_true_iff in O. apply orb_false_iff in O. destruct O as [O O3]. apply orb_false_iff in O. destruct O as [O1 O2].
    destruct (E1 O1) as [-> ->]. cbn [last]. rewrite apply_add by assumption. cbn [nq].
    replace (add_cv r noq) with (Quals false (q_const r) (q_volatile r) false) by (unfold add_cv; cbn; rewrite !orb_false_r; reflexivity).
    reflexivity.
  - pose proof C as C'. rewrite cv_add in C'. apply orb_false_iff in C'. destruct C' as [C1 C2].
    rewrite (add_cv_plain _ _ C). rewrite apply_plain; [reflexivity|].
    destruct ps as [|x ps]; [exact C1|]. apply (E2 C2). clear. revert x. induction ps as [|y ps IH]; intro x; [left; reflexivity|].
    right. apply IH.
Qed.
Lemma elab_ok : forall e s, typed e s -> exists n, elab e = Ok n /\ good n s.
Proof.
  apply (typed_mi members defined zero false
    (fun e s => exists n, elab e = Ok n /\ good n s)
    (fun v ps l => args_of v l ps = Ok tt)
    (fun T l s => plain T -> assoc_ok l -> forall a, ctrl_type a = T -> exists n, assocs_of a l None = Ok (Some n) /\ good n s)
    assoc_ok).
  - intros t v A. exists (at_ (XConst t v) (mk noq t)). split; [reflexivity|]. apply rv_good; try reflexivity; try (left; reflexivity);
      destruct t; try discriminate; reflexivity.
  - intros k u n. exists (at_ (XStr k u n) (mk noq (CArr (Some n) noq (CInt k u)))). split; [reflexivity|].
    apply (at_good (XStr k u n) (mk noq (CArr (Some n) noq (CInt k u)))); auto; try discriminate.
  - intros q t F. exists (at_ (XVar q t) (mk q t)). split; [reflexivity|]. apply at_good; auto; try discriminate; congruence.
  - intros e s a i m p q t w _ (n & E & G) T M O1 O2. destruct O1 as [O1 | O1]; [discriminate|]. destruct O2 as [O2 | O2]; [discriminate|].
    destruct (member_wf _ _ _ _ _ _ _ M) as (W & FN).
    assert (TN : nt n = CRec i) by (rewrite (g_t _ _ G); exact T).
    destruct (lv a) eqn:L.
    + pose proof (g_q _ _ G L) as Q. destruct (struct_ref_ok n i s m p q t w (sq a) TN M Q O2) as (k & K & K1 & K2 & K3 & K4 & K5).
      exists (at_ (XMember e s) k). cbn [TypModel.elab]. rewrite E. cbn [bind]. rewrite K. split; [reflexivity|].
      apply at_good; auto; try discriminate. congruence.
    + destruct (member_found _ _ _ _ _ M (unique i)) as (ps & E0 & _).
      destruct (apply_same (Node q t w true false None false) (last ps (nq n))) as (S1 & S2 & S3 & S4).
      exists (at_ (XMember e s) (apply_cv_qualifier (Node q t w true false None false) (last ps (nq n)))).
      cbn [TypModel.elab]. rewrite E. cbn [bind]. unfold struct_ref. rewrite TN, E0. split; [reflexivity|].
      rewrite orb_false_r in O1. apply negb_true_iff in O1.
      apply at_good; auto; try discriminate. congruence.
  - intros e s a r i m p q t w _ (n & E & G) V M O. destruct O as [O | O]; [discriminate|].
    destruct (member_wf _ _ _ _ _ _ _ M) as (W & FN).
    assert (FS : func (st a) = false). { destruct (value_cases _ _ _ V) as [X | [(X & _) | (F & X & _)]]; [rewrite X; reflexivity | destruct (st a); try discriminate; reflexivity | rewrite <- X; reflexivity]. }
    destruct (value_below _ _ _ _ G V FS) as (p0 & u & R & Z & A1 & A2 & B & RR). pose proof (RR i eq_refl) as ->.
    assert (D : deref_node n = Ok (mk p0 (CRec i))). { unfold deref_node. rewrite B. reflexivity. }
    assert (O0 : negb (cv (add_cv p0 p) && (m || q_atomic q || q_restrict q)) = true /\
                 (array (st a) = true -> cv (sq a) = true -> m || q_atomic q || q_restrict q = false) /\ (array (st a) = true -> r = add_cv (sq a) p0)).
    { destruct (array (st a)) eqn:AR.
      - destruct (value_cases _ _ _ V) as [X | [(_ & p1 & u1 & X & Y) | (F & _)]]; [rewrite X in AR; discriminate | | congruence].
        rewrite (A1 eq_refl) in X. injection X as <- <-. cbn [push] in Y. injection Y as <-. split; [|split; [|reflexivity]].
        + destruct (m || q_atomic q || q_restrict q); [|rewrite andb_false_r; reflexivity]. rewrite andb_true_r in *.
          rewrite !cv_add in *. destruct (cv (sq a)), (cv p0), (cv p); auto.
        + intros _ C. rewrite !cv_add, C in O. cbn [orb andb] in O. apply negb_true_iff in O. exact O.
      - destruct (A2 eq_refl) as [-> _]. split; [exact O | split; discriminate]. }
    destruct O0 as (O1 & O2 & O3).
    destruct (struct_ref_ok (mk p0 (CRec i)) i s m p q t w p0 eq_refl M eq_refl O1) as (k & K & K1 & K2 & K3 & K4 & K5).
    exists (at_ (XArrow e s) (from_array n k)). cbn [TypModel.elab]. rewrite E. cbn [bind]. rewrite D. cbn [bind]. rewrite K. split; [reflexivity|].
    unfold from_array. rewrite (g_t _ _ G), <- array_is. destruct (array (st a)) eqn:AR.
    + destruct (apply_same k (nq n)) as (S1 & S2 & S3 & S4).
      assert (L : lv a = true). { destruct (lv_array _ _ G) as [L | L]; [exact L | congruence]. }
      apply at_good; rewrite ?S1, ?S2, ?S3, ?S4; auto; try discriminate; try congruence.
      intros _. rewrite (g_q _ _ G L), (O3 eq_refl). destruct (cv (sq a)) eqn:C.
      * specialize (O2 eq_refl eq_refl). apply orb_false_iff in O2. destruct O2 as [O2 Q3]. apply orb_false_iff in O2. destruct O2 as [Q1 Q2].
        rewrite apply_add; rewrite K5; try assumption.
        unfold add_cv. cbn [q_atomic q_const q_volatile q_restrict]. rewrite !orb_assoc. reflexivity.
      * rewrite apply_plain by exact C. rewrite (add_cv_plain _ p0 C). exact K5.
    + destruct (A2 eq_refl) as [<- _]. apply at_good; auto; try discriminate; congruence.
  - (* a[i] *)
    intros e i a b q t _ (n & E & G) _ (m & E2 & G2) V I OB O.
    assert (FS : func (st a) = false).
    { destruct (value_cases _ _ _ V) as [X | [(X & _) | (F & X & _)]]; [rewrite X; reflexivity | destruct (st a); try discriminate; reflexivity | rewrite <- X; apply object_func; exact OB]. }
    destruct (value_below _ _ _ _ G V FS) as (p0 & u & R & Z & A1 & A2 & B & _).
    destruct (new_add_pi n m p0 u B) as (x & X); [rewrite (g_t _ _ G2); exact I | exact (fit_n _ _ G2) |].
    assert (NV : u <> CVoid). { intro H. apply Z in H. subst t. discriminate. }
    assert (D : deref_node (mk x (CPtr p0 u)) = Ok (mk p0 u)). { unfold deref_node. cbn [mk nt base]. destruct u; try reflexivity. congruence. }
    destruct (from_array_ok n a q t (mk p0 u) G (lv_array _ _ G) V (or_introl (object_func _ OB)) A1 A2 O) as (F1 & F2 & F3 & F4).
    exists (at_ (XIdx e i) (from_array n (mk p0 u))). cbn [TypModel.elab]. rewrite E. cbn [bind]. rewrite E2. cbn [bind]. rewrite X. cbn [bind]. rewrite D.
    split; [reflexivity|]. apply at_good; auto; try discriminate. intro H. rewrite (object_func _ OB) in H. discriminate.
  - (* i[a] *)
    intros i e b a q t _ (m & E2 & G2) _ (n & E & G) I V OB P.
    pose proof (rp_base _ _ _ (value_rp _ _ _ _ G P V) (object_func _ OB)) as B.
    destruct (new_add_ip m n q t B) as (x & X); [rewrite (g_t _ _ G2); exact I | exact (fit_n _ _ G2) |].
    assert (D : deref_node (mk x (CPtr q t)) = Ok (mk q t)). { unfold deref_node. cbn [mk nt base]. destruct t; try reflexivity. discriminate. }
    exists (at_ (XIdx i e) (mk q t)). cbn [TypModel.elab]. rewrite E2. cbn [bind]. rewrite E. cbn [bind]. rewrite X. cbn [bind]. rewrite D. cbn [bind].
    unfold from_array. replace (is_array (nt m)) with false. 2:{ rewrite (g_t _ _ G2). destruct (st b); try discriminate; reflexivity. }
    split; [reflexivity|]. apply at_good; auto; try discriminate; try congruence. intro H. rewrite (object_func _ OB) in H. discriminate.
  - (* calls *)
    intros f l a q r v ps _ (n & E & G) V NA AR FR _ AG.
    exists (at_ (XCall f l) (mk noq r)). rewrite elab_call, E. cbn [bind].
    assert (X : match nt n with CPtr _ t => t | t => t end = CFun r v ps).
    { rewrite (g_t _ _ G). destruct (value_cases _ _ _ V) as [Y | [(Y & _) | (_ & Y & _)]]; [rewrite Y; reflexivity | congruence | rewrite <- Y; reflexivity]. }
    rewrite X, AG. split; [reflexivity|]. apply rv_good; auto.
  - intros e a _ (n & E & G) M S. destruct (step_ok _ _ G M S) as (_ & k & K & K1 & K2).
    exists (at_ (XPost e) k). cbn [TypModel.elab]. rewrite E. cbn [bind]. rewrite K. split; [reflexivity|].
    rewrite (g_t _ _ G) in K1. rewrite (g_bf _ _ G) in K2. destruct M as (_ & _ & M1 & M2 & _).
    apply rv_good; auto; [|apply object_func; exact M1 | apply (g_fit _ _ G)]. right.
    intros p H. destruct S as [S | (q & t & S & OB)]; [rewrite H in S; discriminate|]. rewrite H in S. injection S as _ <-. discriminate.
  - intros e a _ (n & E & G) M S. destruct (step_ok _ _ G M S) as ((k & K & K1 & _ & K2 & K3) & _).
    exists (at_ (XPre e) k). cbn [TypModel.elab]. rewrite E. cbn [bind]. rewrite K. split; [reflexivity|].
    rewrite (g_t _ _ G) in K1. rewrite (g_bf _ _ G) in K2. destruct M as (_ & _ & M1 & M2 & _).
    apply rv_good; auto; [apply object_func; exact M1 | apply (g_fit _ _ G)].
  - (* & *)
    intros e a _ (n & E & G) L B P AQ. exists (at_ (XAddr e) (mk noq (CPtr (nq n) (nt n)))).
    cbn [TypModel.elab]. rewrite E. cbn [bind]. unfold is_bitfield. rewrite (g_bf _ _ G), B, andb_false_r. split; [reflexivity|].
    assert (X : pointee a = (nq n, nt n)).
    { rewrite (g_q _ _ G L), (g_t _ _ G). unfold pointee. destruct (array (st a)) eqn:AR; [|reflexivity].
      destruct P as [P | P]; [discriminate|]. rewrite AR in P. cbn [andb] in P. apply negb_true_iff in P. rewrite push_plain by exact P.
      destruct (AQ eq_refl) as [Q1 Q2]. apply orb_false_iff in P. destruct P as [P1 P2].
      destruct (sq a) as [q1 q2 q3 q4]. cbn in *. subst. reflexivity. }
    rewrite X. cbn [fst snd].
    apply (rv_good (XAddr e) (mk noq (CPtr (nq n) (nt n)))); auto.
  - (* * *)
    intros e a q t _ (n & E & G) V NV FN O. destruct (func (st a)) eqn:FS.
    + exists (at_ (XDeref e) n). cbn [TypModel.elab]. rewrite E. cbn [bind]. rewrite (g_t _ _ G), <- func_is, FS. split; [reflexivity|].
      assert (X : t = st a /\ q = noq).
      { destruct (value_cases _ _ _ V) as [X | [(X & _) | (_ & X & Y)]]; [rewrite X in FS; discriminate | destruct (st a); discriminate | auto]. }
      destruct X as [-> ->]. assert (W : sbf a = None). { destruct (fits_num _ _ (g_fit _ _ G)) as [W | W]; [exact W|]. destruct (st a); discriminate. }
      apply at_good; auto; try discriminate; try congruence.
      * apply (g_t _ _ G).
      * intros _. apply (g_fn _ _ G FS).
      * rewrite (g_bf _ _ G). exact W.
      * right. intros p H. rewrite H in FS. discriminate.
      * intros _. apply (g_fn _ _ G FS).
    + destruct (value_below _ _ _ _ G V FS) as (p0 & u & R & Z & A1 & A2 & B & _).
      assert (NU : u <> CVoid). { intro H. apply Z in H. congruence. }
      assert (D : deref_node n = Ok (mk p0 u)). { unfold deref_node. rewrite B. destruct u; try reflexivity. congruence. }
      destruct (from_array_ok n a q t (mk p0 u) G (lv_array _ _ G) V (or_intror FS) A1 A2 O) as (F1 & F2 & F3 & F4).
      exists (at_ (XDeref e) (from_array n (mk p0 u))). cbn [TypModel.elab]. rewrite E. cbn [bind]. rewrite (g_t _ _ G), <- func_is, FS, D.
      split; [reflexivity|]. apply at_good; auto; try discriminate. intro H. rewrite F1. exact (FN H).
  - intros o e a IO _ (n & E & G) A. pose proof (fit_n _ _ G) as F.
    assert (X : exists k, pos_node opt n = Ok k /\ nt k = num a /\ nbf k = None /\ ncast k = None).
    { unfold pos_node. rewrite <- (num_eq _ _ G). rewrite <- arith_is, (g_t _ _ G), A. cbn [negb]. rewrite <- (g_t _ _ G) in *.
      destruct (is_integer (nt n)) eqn:I.
      - destruct (promotion_ok n) as (m & P1 & P2); [rewrite integer_is; exact I | exact F |]. rewrite P1. cbn [bind].
        eexists. split; [reflexivity|]. cbn [mk nt nbf ncast]. auto.
      - cbn [bind]. eexists. split; [reflexivity|]. cbn [mk nt nbf ncast]. split; [|auto]. destruct (nt n); try discriminate. destruct (nbf n); reflexivity. }
    destruct X as (k & K & K1 & K2 & K3). exists (at_ (XUn o e) k). cbn [TypModel.elab]. rewrite E. cbn [bind].
    split; [cbn [In] in IO; destruct IO as [<- | [<- | []]]; rewrite K; reflexivity|].
    rewrite <- K1 in *. apply rv_good; auto; rewrite K1; unfold num; (destruct (integer (st a)) eqn:I;
      [destruct (promo_wide _ _ I (g_fit _ _ G)) as (x & y & -> & _); reflexivity | destruct (st a); try discriminate; reflexivity]).
  - intros e a _ (n & E & G) I. pose proof (fit_n _ _ G) as F.
    destruct (promotion_ok n) as (m & P1 & P2); [rewrite (g_t _ _ G); exact I | exact F |].
    exists (at_ (XUn UCompl e) (mk (nq m) (nt m))). cbn [TypModel.elab]. rewrite E. cbn [bind]. unfold bitnot_node.
    rewrite (g_t _ _ G), <- (integer_is (st a)), I. cbn [negb]. rewrite P1. split; [reflexivity|]. rewrite P2, (num_eq _ _ G).
    unfold num. destruct (promo_wide _ _ I (g_fit _ _ G)) as (x & y & -> & _). apply rv_good; auto.
  - intros e a _ (n & E & G) S. destruct (cond_cast_ok _ _ G S) as (c & C).
    exists (at_ (XUn UNot e) int_node). cbn [TypModel.elab]. rewrite E. cbn [bind]. rewrite C. split; [reflexivity|].
    apply (rv_good (XUn UNot e) int_node); auto.
  - intros e a _ (n & E & G) OB B.
    exists (at_ (XSizeof e) (mk noq ty_ulong)). cbn [TypModel.elab]. rewrite E. cbn [bind]. rewrite (g_t _ _ G).
    split; [|apply (rv_good (XSizeof e) (mk noq ty_ulong)); auto].
    pose proof (object_size _ OB) as SZ. destruct (st a); try (rewrite SZ); reflexivity.
  - (* casts *)
    intros q t e a _ (n & E & G) C O1 O2. destruct O1 as [O1 | O1]; [discriminate|]. destruct O2 as [O2 | O2]; [discriminate|].
    assert (IV : invalid_cast (nt n) t = false).
    { rewrite (g_t _ _ G). destruct C as [-> | (S1 & S2 & S3)].
      - unfold invalid_cast. cbn [is_void negb andb is_flonum]. apply andb_false_r.
      - unfold TypSpec.value in S2, S3. unfold invalid_cast.
        destruct (st a); try discriminate; try (destruct (push (sq a) q0 c)); destruct t; try discriminate; try contradiction; reflexivity. }
    assert (NB : nbf n = None \/ is_bitfield n = true \/ arith (nt n) = false).
    { destruct (nbf n) as [w|] eqn:W; [|auto]. right. left. unfold is_bitfield. rewrite W.
      rewrite (g_bf _ _ G) in W. rewrite W, orb_false_r in O1. rewrite (g_mem _ _ G O1); [reflexivity | rewrite W; discriminate]. }
    assert (AT : array t = false /\ func t = false). { destruct C as [-> | (S1 & _)]; [auto | destruct t; try discriminate; auto]. }
    destruct (cast_bf n t IV NB) as (k & K & K1 & K2 & K3). exists (at_ (XCast q t e) k).
    cbn [TypModel.elab]. rewrite E. cbn [bind]. rewrite K. split; [reflexivity|].
    assert (VP : (forall p, t <> CPtr p CVoid) \/ exists p, t = CPtr p CVoid).
    { destruct t; try (left; discriminate). destruct t; try (left; discriminate). right. eauto. }
    destruct VP as [VP | (p & ->)].
    + replace (match t with CPtr p CVoid => no_quals p && snull a && integer (st a) | _ => integer t && zero (XCast q t e) end)
        with (integer t && zero (XCast q t e)) by (destruct t; try reflexivity; destruct t; try reflexivity; exfalso; exact (VP _ eq_refl)).
      apply rv_good; auto; apply AT.
    + assert (NC : ncast k = Some (is_integer (nt n) && nzero n)).
      { unfold TypModel.new_cast in K. rewrite IV in K. replace (same_arith (nt n) (CPtr p CVoid)) with false in K by (destruct (nt n); reflexivity).
        rewrite andb_false_r in K. injection K as <-. reflexivity. }
      assert (NL : is_integer (nt n) && nzero n = snull a && integer (st a)).
      { rewrite <- (g_null _ _ G), <- (g_t _ _ G). unfold is_nullptr. destruct (nt n); cbn [is_integer integer];
          rewrite ?andb_false_r, ?andb_true_r; try reflexivity; destruct (ncast n); reflexivity. }
      assert (NQ : is_integer (nt n) && nzero n = no_quals p && snull a && integer (st a)).
      { rewrite NL. rewrite <- !andb_assoc in *. apply negb_true_iff in O2. destruct (no_quals p); [reflexivity|]. cbn [negb andb] in O2. exact O2. }
      split; cbn [at_ nt nq nbf nmem lv sq st sbf snull rvalue]; auto; try discriminate.
      * unfold is_nullptr. cbn [at_ nt ncast]. rewrite NC, K2. exact NQ.
      * intro H. right. apply andb_true_iff in H. destruct H as [H _]. apply andb_true_iff in H. destruct H as [H _].
        destruct p as [p1 p2 p3 p4]. unfold no_quals in H. cbn in H. destruct p1, p2, p3, p4; try discriminate. reflexivity.
  - intros o x y a b t _ (n & E & G) _ (m & E2 & G2) H. destruct (binary_ok _ _ _ _ _ _ G G2 H) as (k & K & K1 & K2 & K3).
    exists (at_ (XBin o x y) k). cbn [TypModel.elab]. rewrite E. cbn [bind]. rewrite E2. cbn [bind]. rewrite K. split; [reflexivity|].
    assert (AT : array t = false /\ func t = false /\ (forall p, t = CPtr p CVoid -> ncast k = None)).
    { destruct (binary_type _ _ _ _ (g_fit _ _ G) (g_fit _ _ G2) H) as [A | (p & u & ->)].
      - destruct t; try discriminate; repeat split; auto; discriminate.
      - repeat split. intros p' X. destruct K3 as [K3 | K3]; [exact K3 | discriminate]. }
    destruct AT as (A1 & A2 & A3). apply rv_good; auto.
    destruct K3 as [K3 | K3]; [auto|]. right. intros p ->. discriminate.
  - intros z x y c a b t _ (k & E0 & G0) _ (n & E & G) _ (m & E2 & G2) S H.
    destruct (cond_cast_ok _ _ G0 S) as (c' & C). destruct (cond_ok _ _ _ _ _ G G2 H) as (q & K).
    exists (at_ (XCond z x y) (mk q t)). cbn [TypModel.elab]. rewrite E0. cbn [bind]. rewrite C. cbn [bind]. rewrite E. cbn [bind]. rewrite E2. cbn [bind].
    rewrite K. split; [reflexivity|].
    assert (AT : array t = false /\ func t = false).
    { pose proof (g_fit _ _ G) as W1. pose proof (g_fit _ _ G2) as W2. destruct H; try (split; reflexivity).
      destruct (uac_def _ _ H H0 _ _ W1 W2) as (t' & U & AT & _). unfold num in H1. rewrite H1 in U. injection U as <-. destruct t; try discriminate; auto. }
    apply rv_good; auto; apply AT.
  - intros x y a b _ (n & E & G) _ (m & E2 & G2) M O AS. destruct O as [O | O]; [discriminate|]. apply negb_true_iff in O.
    destruct M as (L & _ & M1 & M2 & _).
    exists (at_ (XAssign None x y) (Node (nq n) (st a) (nbf n) false false None false)). cbn [TypModel.elab]. rewrite E. cbn [bind]. rewrite E2. cbn [bind].
    unfold simple_assign. rewrite (g_q _ _ G L), O. rewrite (assign_ok n m b (st a) G2 (g_t _ _ G) AS), (g_q _ _ G L). split; [reflexivity|].
    apply rv_good; auto; [apply (g_bf _ _ G) | apply object_func; exact M1 | apply (g_fit _ _ G)].
  - intros o x y a b _ (n & E & G) _ (m & E2 & G2) M K. destruct (compound_ok _ _ _ _ _ G G2 M K) as (k & K0 & K1 & _ & K2 & K3).
    exists (at_ (XAssign (Some o) x y) k). cbn [TypModel.elab]. rewrite E. cbn [bind]. rewrite E2. cbn [bind]. rewrite K0. split; [reflexivity|].
    rewrite (g_t _ _ G) in K1. rewrite (g_bf _ _ G) in K2. destruct M as (_ & _ & M1 & M2 & _).
    apply rv_good; auto; [apply object_func; exact M1 | apply (g_fit _ _ G)].
  - intros x y a b _ (n & E & G) _ (m & E2 & G2) P O. destruct O as [O | O]; [discriminate|]. apply negb_true_iff in O.
    exists (at_ (XComma x y) (Node (if is_array (nt m) then noq else nq m) (array_to_pointer (nt m)) (nbf m) false false None false)).
    cbn [TypModel.elab]. rewrite E. cbn [bind]. rewrite E2. split; [reflexivity|].
    assert (V : array_to_pointer (nt m) = value b).
    { rewrite <- (ctrl_value _ _ G2 P). unfold ctrl_type. rewrite (g_t _ _ G2). destruct (st b); try reflexivity. discriminate. }
    apply rv_good; auto.
    + apply (g_bf _ _ G2).
    + rewrite <- V. destruct (nt m); reflexivity.
    + rewrite <- V, (g_t _ _ G2). destruct (st b); try reflexivity. discriminate.
    + rewrite <- V, (g_t _ _ G2). pose proof (g_fit _ _ G2) as W. destruct (sbf b); [destruct (st b); try discriminate; exact W | reflexivity].
  - intros c l a s _ (n & E & G) P PL _ H _ A. destruct PL as [PL | PL]; [discriminate|].
    destruct (H PL A n (ctrl_value _ _ G P)) as (k & K & GK). exists k. rewrite elab_generic, E. cbn [bind]. rewrite K. split; [reflexivity | exact GK].
  - reflexivity.
  - intros e a l _ (n & E & G) _ _ AG. cbn [args_of]. rewrite E. cbn [bind]. exact AG.
  - intros v q t ps e a l _ (n & E & G) AS _ AG. cbn [args_of]. rewrite E. cbn [bind]. rewrite (assign_ok (mk q t) n a t G eq_refl AS). cbn [bind]. exact AG.
  - intros T l1 t e l2 s _ (n & E & G) C N PL A a CT. rewrite assocs_app.
    assert (A1 : assoc_ok l1) by (intros o x J; apply A, in_or_app; auto).
    assert (A2 : assoc_ok l2) by (intros o x J; apply A, in_or_app; right; right; exact J).
    destruct (assocs_nomatch a l1 A1) as (_ & (r & R) & _).
    { rewrite CT. apply nomatch_of; auto. intros q u x J. apply (N q u x), in_or_app. auto. }
    destruct (assocs_nomatch a l2 A2) as (X & _).
    { rewrite CT. apply nomatch_of; auto. intros q u x J. apply (N q u x), in_or_app. auto. }
    rewrite R. cbn [bind assocs_of]. destruct (A (Some (noq, t)) e) as (_ & F & _); [apply in_or_app; right; left; reflexivity|].
    rewrite func_is in F. rewrite F, E. cbn [bind]. rewrite CT, (compat_ceq _ _ C), same_quals_refl. cbn [andb]. fold (assocs_of a). rewrite X. eauto.
  - intros T l1 e l2 s _ (n & E & G) N D PL A a CT. rewrite assocs_app.
    assert (A1 : assoc_ok l1) by (intros o x J; apply A, in_or_app; auto).
    assert (A2 : assoc_ok l2) by (intros o x J; apply A, in_or_app; right; right; exact J).
    destruct (assocs_nomatch a l1 A1) as (_ & _ & R).
    { rewrite CT. apply nomatch_of; auto. intros q u x J. apply (N q u x), in_or_app. auto. }
    destruct (assocs_nomatch a l2 A2) as (X & _).
    { rewrite CT. apply nomatch_of; auto. intros q u x J. apply (N q u x), in_or_app. auto. }
    rewrite (R D). cbn [bind assocs_of]. rewrite E. cbn [bind]. fold (assocs_of a). rewrite X. eauto.
  - intros o x [].
  - intros t e s l _ (n & E & G) F _ A o x [J | J]; [|exact (A o x J)]. injection J as <- <-. split; [eauto|].
    destruct t as [[q u]|]; [|exact Logic.I]. destruct F as [F [P | P]]; [discriminate | auto].
Qed.
End P.
