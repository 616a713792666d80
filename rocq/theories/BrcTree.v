(** Trees of initializers under the events of BrcSpec.v. *)
From Coq Require Import String ZArith List Bool Lia PeanoNat.
From Verif Require Import Base BrcSpec BrcModel.
Import ListNotations.
Local Open Scope list_scope.

(** * Paths *)
Lemma below_app p r : below p (p ++ r) = Some r.
Proof. induction p as [|i p IH]; cbn [app below]; [reflexivity|]. rewrite Nat.eqb_refl. exact IH. Qed.
Lemma below_inv p x q : below p x = Some q -> x = p ++ q.
Proof.
  revert x. induction p as [|i p IH]; intros x H; cbn [below] in H; [injection H as ->; reflexivity|].
  destruct x as [|j x]; [discriminate|]. destruct (Nat.eqb i j) eqn:D; [|discriminate].
  apply Nat.eqb_eq in D. subst j. cbn [app]. f_equal. apply IH, H.
Qed.
Lemma below_cases p q : (exists r, p = q ++ r) \/ (exists i r, q = p ++ i :: r) \/ (below q p = None /\ below p q = None).
Proof.
  destruct (below q p) as [r|] eqn:D.
  - left. exists r. apply below_inv, D.
  - destruct (below p q) as [[|i r]|] eqn:D2.
    + apply below_inv in D2. rewrite app_nil_r in D2. subst q. rewrite <- (app_nil_r p) in D at 2. rewrite below_app in D. discriminate.
    + right. left. exists i, r. apply below_inv, D2.
    + right. right. split; reflexivity.
Qed.
Lemma below_trans p q r : below p q <> None -> below p (q ++ r) <> None.
Proof.
  intros H. destruct (below p q) as [s|] eqn:D; [|congruence]. apply below_inv in D. subst q.
  rewrite <- app_assoc, below_app. discriminate.
Qed.
Lemma sub_app T p q U : sub T p = Some U -> sub T (p ++ q) = sub U q.
Proof.
  revert T. induction p as [|i p IH]; intros T H; cbn [sub app] in *; [injection H as ->; reflexivity|].
  destruct (kid T i); [apply IH, H|discriminate].
Qed.
Lemma sub_snoc T p i U W : sub T p = Some U -> kid U i = Some W -> sub T (p ++ [i]) = Some W.
Proof. intros H K. rewrite (sub_app _ _ _ _ H). cbn [sub]. rewrite K. reflexivity. Qed.
Lemma split_app T p x q : union_split T p x = true -> union_split T p (x ++ q) = true.
Proof.
  revert T x. induction p as [|i p IH]; intros T x H; [discriminate|].
  destruct x as [|j x]; [discriminate|]. cbn [union_split app] in *.
  destruct (Nat.eqb i j); [|exact H]. destruct (kid T i); [apply IH, H|discriminate].
Qed.
Lemma split_app_l T p x q : union_split T p x = true -> union_split T (p ++ q) x = true.
Proof.
  revert T x. induction p as [|i p IH]; intros T x H; [discriminate|].
  destruct x as [|j x]; [discriminate|]. cbn [union_split app] in *.
  destruct (Nat.eqb i j); [|exact H]. destruct (kid T i); [apply IH, H|discriminate].
Qed.
Lemma split_inv T p x : union_split T p x = true ->
  exists r i j p' x' U, p = r ++ i :: p' /\ x = r ++ j :: x' /\ i <> j /\ sub T r = Some U /\ is_union U = true.
Proof.
  revert T x. induction p as [|i p IH]; intros T x H; [discriminate|].
  destruct x as [|j x]; [discriminate|]. cbn [union_split] in H.
  destruct (Nat.eqb i j) eqn:D.
  - apply Nat.eqb_eq in D. subst j. destruct (kid T i) as [U|] eqn:K; [|discriminate].
    destruct (IH _ _ H) as (r & a & b & p' & x' & W & -> & -> & N & S & Un).
    exists (i :: r), a, b, p', x', W. repeat split; auto. cbn [sub]. rewrite K. exact S.
  - apply Nat.eqb_neq in D. exists [], i, j, p, x, T. repeat split; auto.
Qed.
Lemma split_intro T r i j p x U : sub T r = Some U -> is_union U = true -> i <> j ->
  union_split T (r ++ i :: p) (r ++ j :: x) = true.
Proof.
  revert T. induction r as [|k r IH]; intros T S Un N; cbn [app union_split sub] in *.
  - injection S as ->. apply Nat.eqb_neq in N. rewrite N. exact Un.
  - rewrite Nat.eqb_refl. destruct (kid T k); [|discriminate]. apply IH; assumption.
Qed.

Definition kids (T : ity) : nat :=
  match T with IScal _ => 0 | IArr n _ => n | IStr _ ms => length ms end.
Lemma kid_lt T i U : kid T i = Some U -> i < kids T.
Proof.
  destruct T as [b|n t|u ms]; cbn [kid kids]; [discriminate| |].
  - destruct (Nat.ltb i n) eqn:D; [|discriminate]. intros _. apply Nat.ltb_lt, D.
  - intros H. apply nth_error_Some. destruct (nth_error ms i); [discriminate|discriminate].
Qed.
Lemma kid_ex T i : i < kids T -> exists U, kid T i = Some U.
Proof.
  destruct T as [b|n t|u ms]; cbn [kid kids]; [lia| |].
  - intros H. apply Nat.ltb_lt in H. rewrite H. eauto.
  - intros H. apply nth_error_Some in H. destruct (nth_error ms i) as [[o t]|]; [eauto|congruence].
Qed.

Section Tree.
Variable E : Type.
Notation ini := (ini E).
Notation ev := (ev E).
Implicit Types (n m c : ini) (v w : ev) (T U : ity) (p q r x : path).

(** * Nodes *)
Fixpoint nd n p : option ini :=
  match p with
  | [] => Some n
  | i :: q => match nth_error (arr n) i with Some c => nd c q | None => None end
  end.
Definition shape T n : Prop :=
  forall p U, sub T p = Some U -> exists m, nd n p = Some m /\ length (arr m) = kids U.
Lemma shape_len T n : shape T n -> length (arr n) = kids T.
Proof. intros H. destruct (H [] T eq_refl) as (m & N & L). cbn in N. injection N as <-. exact L. Qed.
Lemma shape_kid T n i U : shape T n -> kid T i = Some U -> exists c, nth_error (arr n) i = Some c /\ shape U c.
Proof.
  intros H K. destruct (H [i] U) as (m & N & L); [cbn [sub]; rewrite K; reflexivity|].
  cbn [nd] in N. destruct (nth_error (arr n) i) as [c|] eqn:Nc; [|discriminate]. exists c. split; [reflexivity|].
  intros p W S. destruct (H (i :: p) W) as (m' & N' & L'); [cbn [sub]; rewrite K; exact S|].
  cbn [nd] in N'. rewrite Nc in N'. eauto.
Qed.
Lemma shape_intro T n : length (arr n) = kids T ->
  (forall i U, kid T i = Some U -> exists c, nth_error (arr n) i = Some c /\ shape U c) -> shape T n.
Proof.
  intros L K p U S. destruct p as [|i p].
  - cbn in S. injection S as <-. exists n. split; [reflexivity|exact L].
  - cbn [sub] in S. destruct (kid T i) as [W|] eqn:D; [|discriminate].
    destruct (K i W D) as (c & N & Sh). destruct (Sh p U S) as (m & N' & L').
    exists m. split; [|exact L']. cbn [nd]. rewrite N. exact N'.
Qed.
Lemma nth_upd {A} (l : list A) i a j :
  nth_error (upd l i a) j = if Nat.eqb i j then match nth_error l j with Some _ => Some a | None => None end else nth_error l j.
Proof.
  revert i j. induction l as [|b l IH]; intros i j; destruct i as [|i], j as [|j]; cbn [upd nth_error Nat.eqb]; try reflexivity.
  - destruct (Nat.eqb i j); reflexivity.
  - apply IH.
Qed.
Lemma upd_length {A} (l : list A) i a : length (upd l i a) = length l.
Proof. revert i. induction l as [|b l IH]; intros [|i]; cbn [upd length]; auto. Qed.
Lemma upd_upd {A} (l : list A) i a b : upd (upd l i a) i b = upd l i b.
Proof. revert i. induction l as [|x l IH]; intros [|i]; cbn [upd]; [reflexivity..|]. f_equal. apply IH. Qed.
Lemma upd_self {A} (l : list A) i a : nth_error l i = Some a -> upd l i a = l.
Proof. revert i. induction l as [|x l IH]; intros [|i] H; cbn [upd nth_error] in *; try discriminate; [congruence|]. f_equal. apply IH, H. Qed.
Lemma shape_upd T n i U c k s : shape T n -> kid T i = Some U -> shape U c -> shape T (Ini k s (upd (arr n) i c)).
Proof.
  intros H K C. apply shape_intro; cbn [arr].
  - rewrite upd_length. apply shape_len, H.
  - intros j W Kj. rewrite nth_upd. destruct (shape_kid _ _ _ _ H Kj) as (d & N & Sd).
    rewrite N. destruct (Nat.eqb i j) eqn:D.
    + apply Nat.eqb_eq in D. subst j. exists c. split; [reflexivity|]. rewrite K in Kj. injection Kj as <-. exact C.
    + exists d. split; [reflexivity|exact Sd].
Qed.
Lemma shape_arr T n m : arr n = arr m -> shape T n -> shape T m.
Proof.
  intros A H. apply shape_intro; rewrite <- A; [apply shape_len, H|]. intros i U K. apply shape_kid with (1 := H), K.
Qed.

(** * Events on trees *)
Fixpoint walk (g : ity -> ini -> ini) T p n : ini :=
  match p with
  | [] => g T n
  | i :: q =>
      match kid T i, nth_error (arr n) i with
      | Some U, Some c => Ini (kindof n) (if is_union T then SMem i else slotof n) (upd (arr n) i (walk g U q c))
      | _, _ => n
      end
  end.
Definition clr T n : ini := if is_union T then with_slot (SMem 0) n else n.
Definition act v T n : ini := match v with Clear _ => clr T n | Put _ s => set s n end.
Definition ap T v n : ini := walk (act v) T (place v) n.
Fixpoint aps T (l : list ev) n : ini := match l with [] => n | v :: l => aps T l (ap T v n) end.
Lemma aps_app T l l' n : aps T (l ++ l') n = aps T l' (aps T l n).
Proof. revert n. induction l as [|v l IH]; intros n; [reflexivity|]. apply IH. Qed.
Lemma act_arr v T n : arr (act v T n) = arr n.
Proof. destruct v, n; cbn; [unfold clr; destruct (is_union T); reflexivity|reflexivity]. Qed.
Lemma walk_shape v T p n : shape T n -> shape T (walk (act v) T p n).
Proof.
  revert T n. induction p as [|i p IH]; intros T n H; cbn [walk].
  - apply (shape_arr T n); [symmetry; apply act_arr|exact H].
  - destruct (kid T i) as [U|] eqn:K; [|exact H].
    destruct (shape_kid _ _ _ _ H K) as (c & N & Sc). rewrite N.
    apply shape_upd with (U := U); auto.
Qed.
Lemma ap_shape T v n : shape T n -> shape T (ap T v n).
Proof. apply walk_shape. Qed.
Lemma aps_shape T l n : shape T n -> shape T (aps T l n).
Proof. revert n. induction l as [|v l IH]; intros n H; [exact H|]. apply IH, ap_shape, H. Qed.

Lemma nd_app n p q m : nd n p = Some m -> nd n (p ++ q) = nd m q.
Proof.
  revert n. induction p as [|i p IH]; intros n H; cbn [nd app] in *; [injection H as ->; reflexivity|].
  destruct (nth_error (arr n) i); [apply IH, H|discriminate].
Qed.
Lemma nd_walk_below g T n q r U : shape T n -> sub T q = Some U ->
  exists m, nd n q = Some m /\ nd (walk g T q n) (q ++ r) = nd (g U m) r.
Proof.
  revert T n. induction q as [|i q IH]; intros T n H S; cbn [sub walk app nd] in *.
  - injection S as <-. eauto.
  - destruct (kid T i) as [W|] eqn:K; [|discriminate]. destruct (shape_kid _ _ _ _ H K) as (c & N & Sc).
    rewrite N. cbn [arr]. rewrite nth_upd, Nat.eqb_refl, N. apply IH; assumption.
Qed.
Lemma nd_walk_above g T n p i r U V : shape T n -> sub T p = Some U -> sub T (p ++ i :: r) = Some V ->
  exists m ms, nd n p = Some m /\ nd (walk g T (p ++ i :: r) n) p =
    Some (Ini (kindof m) (if is_union U then SMem i else slotof m) ms).
Proof.
  revert T n. induction p as [|j p IH]; intros T n H S S2; cbn [sub walk app nd] in *.
  - injection S as <-. destruct (kid T i) as [W|] eqn:K; [|discriminate].
    destruct (shape_kid _ _ _ _ H K) as (c & N & Sc). rewrite N. eauto.
  - destruct (kid T j) as [W|] eqn:K; [|discriminate]. destruct (shape_kid _ _ _ _ H K) as (c & N & Sc).
    rewrite N. cbn [arr]. rewrite nth_upd, Nat.eqb_refl, N. apply IH; assumption.
Qed.
Lemma nd_walk_apart g T n p q : below q p = None -> below p q = None -> nd (walk g T q n) p = nd n p.
Proof.
  revert T n p. induction q as [|i q IH]; intros T n p H H2; cbn [below] in *; [discriminate|].
  destruct p as [|j p]; [discriminate|]. cbn [below] in *. cbn [walk].
  destruct (kid T i) as [U|]; [|reflexivity]. destruct (nth_error (arr n) i) as [c|] eqn:N; [|reflexivity].
  cbn [nd arr]. rewrite nth_upd. rewrite (Nat.eqb_sym j i) in H2.
  destruct (Nat.eqb i j) eqn:D; [|reflexivity].
  apply Nat.eqb_eq in D. subst j. rewrite N. apply IH; assumption.
Qed.

(** The nodes that lead to a place are lists. *)
Fixpoint okp n p : Prop :=
  match p with
  | [] => True
  | i :: q => kindof n = KList /\ match nth_error (arr n) i with Some c => okp c q | None => False end
  end.
Fixpoint okev T n (l : list ev) : Prop :=
  match l with [] => True | v :: l => okp n (place v) /\ okev T (ap T v n) l end.
Lemma okev_app T n l l' : okev T n (l ++ l') <-> okev T n l /\ okev T (aps T l n) l'.
Proof.
  revert n. induction l as [|v l IH]; intros n; cbn [app okev aps]; [tauto|]. rewrite IH. tauto.
Qed.
Lemma okp_intro T n p : shape T n -> sub T p <> None ->
  (forall r i r' m, p = r ++ i :: r' -> nd n r = Some m -> kindof m = KList) -> okp n p.
Proof.
  revert T n. induction p as [|i p IH]; intros T n H S K; cbn [okp]; [exact Logic.I|].
  split; [apply (K [] i p); reflexivity|]. cbn [sub] in S. destruct (kid T i) as [U|] eqn:Ki; [|congruence].
  destruct (shape_kid _ _ _ _ H Ki) as (c & N & Sc). rewrite N. apply (IH U); [exact Sc|exact S|].
  intros r j r' m -> Nr. apply (K (i :: r) j r' m); [reflexivity|]. cbn [nd]. rewrite N. exact Nr.
Qed.
Lemma okp_nd n p r i r' : okp n p -> p = r ++ i :: r' -> exists m, nd n r = Some m /\ kindof m = KList.
Proof.
  revert n r. induction p as [|j p IH]; intros n r H Q; [destruct r; discriminate|].
  cbn [okp] in H. destruct H as [K H]. destruct r as [|k r]; cbn [app nd] in *.
  - eauto.
  - injection Q as <- Q. destruct (nth_error (arr n) j) as [c|]; [|contradiction]. apply (IH c r H Q).
Qed.

(** * New trees *)
Lemma whole_kid T i U : whole T -> kid T i = Some U -> whole U.
Proof.
  destruct T as [b|k t|u ms]; cbn [kid]; [discriminate| |].
  - intros [_ [_ H]] K. destruct (Nat.ltb i k); [|discriminate]. injection K as <-. exact H.
  - intros [_ H] K. revert i K. cbn [whole] in H. induction ms as [|[o t] ms IH]; intros [|i] K; cbn [nth_error] in K; try discriminate.
    + injection K as <-. apply H.
    + apply (IH (proj2 H) i K).
Qed.
Lemma kid_repeat {A} (a : A) k i : i < k -> nth_error (repeat a k) i = Some a.
Proof. revert i. induction k as [|k IH]; intros [|i] L; cbn [repeat nth_error]; [lia|lia|reflexivity|]. apply IH. lia. Qed.
Lemma new_kids T : length (arr (@new E T)) = kids T.
Proof.
  destruct T as [b|k t|u ms]; cbn [new arr kids]; [reflexivity|apply repeat_length|].
  induction ms as [|[o t] ms IH]; cbn [length]; [reflexivity|]. f_equal. exact IH.
Qed.
Lemma new_kid T i U : kid T i = Some U -> nth_error (arr (@new E T)) i = Some (new U).
Proof.
  destruct T as [b|k t|u ms]; cbn [kid new arr]; [discriminate| |].
  - destruct (Nat.ltb i k) eqn:D; [|discriminate]. intros H. injection H as <-. apply kid_repeat, Nat.ltb_lt, D.
  - revert i. induction ms as [|[o t] ms IH]; intros [|i] H; cbn [nth_error] in *; try discriminate.
    + injection H as <-. reflexivity.
    + apply IH, H.
Qed.
Lemma nd_new T p U : sub T p = Some U -> nd (@new E T) p = Some (new U).
Proof.
  revert T. induction p as [|i p IH]; intros T H; cbn [sub nd] in *; [injection H as <-; reflexivity|].
  destruct (kid T i) as [W|] eqn:K; [|discriminate]. rewrite (new_kid _ _ _ K). apply IH, H.
Qed.
Lemma new_shape T : shape T (@new E T).
Proof. intros p U S. exists (new U). split; [apply nd_new, S|apply new_kids]. Qed.
Lemma new_kind T : kindof (@new E T) = if is_scalar T then KNone else KList.
Proof. destruct T; reflexivity. Qed.

(** * Assignments *)
Fixpoint asg T n p (s : src E) : Prop :=
  match p with
  | [] => kindof n = KExpr /\ slotof n = SExp s
  | i :: q => kindof n = KList /\ (is_union T = true -> slotof n = SMem i) /\
      exists U c, kid T i = Some U /\ nth_error (arr n) i = Some c /\ asg U c q s
  end.
Definition sane T n : Prop :=
  forall p m U, sub T p = Some U -> nd n p = Some m ->
    (kindof m = KExpr -> is_arr U = false /\ exists s, slotof m = SExp s) /\
    (kindof m = KList -> is_scalar U = false).
Lemma sane_kid T n i U c : sane T n -> kid T i = Some U -> nth_error (arr n) i = Some c -> sane U c.
Proof.
  intros H K N p m W S Nd. apply (H (i :: p) m W); cbn [sub nd]; [rewrite K; exact S|rewrite N; exact Nd].
Qed.
Lemma pre_pre v i p : pre (i :: p) v = pre [i] (pre p v).
Proof. destruct v; reflexivity. Qed.
Section IniInd.
Variable P : ini -> Prop.
Hypothesis H : forall k s ms, Forall P ms -> P (Ini k s ms).
Fixpoint ini_ind2 (n : ini) : P n :=
  match n with
  | Ini k s ms => H k s ms ((fix go (ms : list ini) : Forall P ms :=
      match ms with [] => Forall_nil _ | c :: r => Forall_cons c (ini_ind2 c) (go r) end) ms)
  end.
End IniInd.
Lemma assigns_spec n : forall T, shape T n -> sane T n ->
  exists A, assigns T n = ROk A /\ forall v, In v A <-> exists p s, v = Put p s /\ asg T n p s.
Proof.
  induction n as [k s ms IH] using ini_ind2. intros T Sh Sa.
  destruct k; cbn [assigns].
  - exists []. split; [reflexivity|]. intros v. split; [intros []|].
    intros ([|i p] & s' & -> & A); cbn [asg kindof] in A; destruct A; discriminate.
  - pose proof (proj2 (Sa [] (Ini KList s ms) T eq_refl eq_refl) eq_refl) as Ns.
    assert (Len : length ms = kids T) by (apply (shape_len _ _ Sh)).
    (* the loop over the members *)
    assert (G : forall ms', (forall j c, nth_error ms' j = Some c -> nth_error ms (length ms - length ms' + j) = Some c) ->
      length ms' <= length ms ->
      exists A, (fix go (k : nat) (ms : list ini) : res (list ev) :=
        match ms with
        | [] => ROk []
        | c :: ms' =>
            bind (if is_union T && negb (match s with SMem i => Nat.eqb i k | _ => false end) then ROk []
                  else match kid T k with
                       | Some U => bind (assigns U c) (fun a1 => ROk (map (pre [k]) a1))
                       | None => ROk []
                       end) (fun a1 =>
            bind (go (S k) ms') (fun a2 => ROk (a1 ++ a2)))
        end) (length ms - length ms') ms' = ROk A /\
        forall v, In v A <-> exists i p s', v = Put (i :: p) s' /\ length ms - length ms' <= i /\ asg T (Ini KList s ms) (i :: p) s').
    { induction ms' as [|c ms' IHm]; intros Nth Le.
      - exists []. split; [reflexivity|]. intros v. split; [intros []|].
        intros (i & p & s' & -> & Li & _ & _ & U & c & Ki & _). apply kid_lt in Ki. cbn [length] in Li. lia.
      - cbn [length] in *. pose (j := length ms - S (length ms')). fold j.
        assert (Nc : nth_error ms j = Some c) by (specialize (Nth 0 c eq_refl); rewrite Nat.add_0_r in Nth; exact Nth).
        assert (Ej : length ms - length ms' = S j) by (unfold j; lia).
        destruct IHm as (A' & Q' & I'); [|lia|].
        { intros a d Na. rewrite Ej. specialize (Nth (S a) d Na). rewrite Nat.add_succ_r in Nth. exact Nth. }
        rewrite Ej in Q', I'.
        destruct (kid_ex T j) as (U & Kj). { rewrite <- Len. apply nth_error_Some. congruence. }
        destruct (is_union T && negb match s with SMem i => Nat.eqb i j | _ => false end) eqn:D.
        + exists A'. split. { cbn [bind app]. rewrite Q'. reflexivity. }
          intros v. rewrite I'. apply andb_prop in D. destruct D as [D1 D2].
          split; intros (i & p & s' & -> & Li & As); exists i, p, s'; (split; [reflexivity|]; split; [|exact As]); [lia|].
          destruct (Nat.eq_dec i j) as [->|]; [|lia]. exfalso. destruct As as (_ & Sl & _).
          specialize (Sl D1). cbn [slotof] in Sl. rewrite Sl, Nat.eqb_refl in D2. discriminate.
        + rewrite Kj. rewrite Forall_forall in IH.
          destruct (IH c (nth_error_In _ _ Nc) U) as (Ac & Qc & Ic).
          { destruct (shape_kid _ _ _ _ Sh Kj) as (c' & N' & Sc). cbn [arr] in N'. rewrite Nc in N'. injection N' as <-. exact Sc. }
          { apply (sane_kid _ _ _ _ _ Sa Kj Nc). }
          exists (map (pre [j]) Ac ++ A'). split.
          { rewrite Qc. cbn [bind]. rewrite Q'. reflexivity. }
          intros v. rewrite in_app_iff, in_map_iff, I'. split.
          * intros [(w & <- & Iw)|(i & p & s' & -> & Li & As)].
            -- apply Ic in Iw. destruct Iw as (p & s' & -> & As). exists j, p, s'. split; [reflexivity|]. split; [lia|].
               cbn [asg kindof slotof arr]. split; [reflexivity|]. split; [|eauto].
               intros Un. rewrite Un in D. cbn [andb] in D. apply negb_false_iff in D.
               destruct s as [|s0|i]; try discriminate. apply Nat.eqb_eq in D. congruence.
            -- exists i, p, s'. split; [reflexivity|]. split; [lia|exact As].
          * intros (i & p & s' & -> & Li & As). destruct (Nat.eq_dec i j) as [->|].
            -- left. exists (Put p s'). split; [reflexivity|]. apply Ic. exists p, s'. split; [reflexivity|].
               destruct As as (_ & _ & U' & c' & Kj' & Nc' & As). cbn [arr] in Nc'. rewrite Nc in Nc'. injection Nc' as <-. rewrite Kj in Kj'. injection Kj' as <-. exact As.
            -- right. exists i, p, s'. split; [reflexivity|]. split; [lia|exact As]. }
    destruct (G ms) as (A & Q & Hi); [rewrite Nat.sub_diag; auto|lia|]. rewrite Nat.sub_diag in Q, Hi.
    destruct T as [b|a t|u mt]; [discriminate Ns| |]; (exists A; split; [exact Q|]; intros v; rewrite Hi; split).
    1, 3: intros (i & p & s' & -> & _ & As); eauto.
    1, 2: intros ([|i p] & s' & -> & As); [destruct As; discriminate|]; exists i, p, s'; repeat split; try lia; apply As.
  - destruct (proj1 (Sa [] (Ini KExpr s ms) T eq_refl eq_refl) eq_refl) as [Na (s' & Qs)]. cbn [slotof] in Qs. subst s.
    exists [Put [] s']. split; [destruct T; [reflexivity|discriminate Na|reflexivity]|].
    intros v. split.
    + intros [<-|[]]. exists [], s'. repeat split.
    + intros ([|i p] & s2 & -> & As); cbn [asg kindof slotof] in As; destruct As as [A1 A2]; [|discriminate].
      injection A2 as ->. left. reflexivity.
Qed.

Lemma asg_nd T n p s : asg T n p s -> exists m, nd n p = Some m /\ kindof m = KExpr /\ slotof m = SExp s.
Proof.
  revert T n. induction p as [|i p IH]; intros T n H; cbn [asg nd] in *.
  - exists n. tauto.
  - destruct H as (_ & _ & U & c & K & N & A). rewrite N. apply (IH U c A).
Qed.
Lemma asg_slot T n r i p U s : asg T n (r ++ i :: p) s -> sub T r = Some U -> is_union U = true ->
  exists m, nd n r = Some m /\ slotof m = SMem i.
Proof.
  revert T n. induction r as [|j r IH]; intros T n H S Un; cbn [app asg sub nd] in *.
  - injection S as <-. exists n. split; [reflexivity|]. apply H, Un.
  - destruct H as (_ & _ & W & c & K & N & A). rewrite K in S. rewrite N. apply (IH W c A S Un).
Qed.
Lemma asg_unique T n p s p' s' x : asg T n p s -> asg T n p' s' ->
  below p x <> None -> below p' x <> None -> p = p' /\ s = s'.
Proof.
  revert T n p' x. induction p as [|i p IH]; intros T n p' x A A' B B'.
  - destruct p' as [|i' p']; cbn [asg] in *; [|destruct A as [A _], A' as [A' _]; congruence].
    destruct A as [_ A], A' as [_ A']. split; congruence.
  - destruct p' as [|i' p']; cbn [asg below] in *; [destruct A as [A _], A' as [A' _]; congruence|].
    destruct x as [|j x]; [congruence|].
    destruct (Nat.eqb i j) eqn:D; [|congruence]. destruct (Nat.eqb i' j) eqn:D'; [|congruence].
    apply Nat.eqb_eq in D, D'. subst i i'. destruct A as (_ & _ & U & c & K & N & A), A' as (_ & _ & U' & c' & K' & N' & A').
    rewrite K in K'. injection K' as <-. rewrite N in N'. injection N' as <-.
    destruct (IH _ _ _ _ A A' B B') as [-> ->]. split; reflexivity.
Qed.
Lemma asg_nosplit T n p s p' s' x : asg T n p s -> asg T n p' s' -> below p x <> None -> union_split T p' x = false.
Proof.
  intros A A' B. destruct (union_split T p' x) eqn:D; [|reflexivity]. exfalso.
  destruct (split_inv _ _ _ D) as (r & i & j & p1 & x1 & U & -> & -> & N & S & Un).
  destruct (asg_slot _ _ _ _ _ _ _ A' S Un) as (m & Nm & Sm).
  destruct (below p (r ++ j :: x1)) as [q|] eqn:Bq; [|congruence]. apply below_inv in Bq.
  destruct (below_cases r p) as [(r' & ->)|[(k & r' & ->)|[B1 B2]]].
  - (* p is above r: an expression there *)
    destruct (asg_nd _ _ _ _ A) as (m1 & N1 & K1 & _). destruct r' as [|k r'].
    + rewrite app_nil_r in *. rewrite N1 in Nm. injection Nm as <-.
      destruct (okp_nd n (p ++ i :: p1) p i p1) as (m2 & N2 & K2); [|reflexivity|congruence].
      clear - A'. revert T n A'. generalize (p ++ i :: p1). intros y. induction y as [|a y IH]; intros T n H; cbn [asg okp] in *; [exact Logic.I|].
      destruct H as (K & _ & U & c & _ & N & A). split; [exact K|]. rewrite N. apply (IH U c A).
    + destruct (okp_nd n ((p ++ k :: r') ++ i :: p1) p k (r' ++ i :: p1)) as (m2 & N2 & K2); [|rewrite <- app_assoc; reflexivity|congruence].
      clear - A'. revert T n A'. generalize ((p ++ k :: r') ++ i :: p1). intros y. induction y as [|a y IH]; intros T n H; cbn [asg okp] in *; [exact Logic.I|].
      destruct H as (K & _ & U & c & _ & N & A). split; [exact K|]. rewrite N. apply (IH U c A).
  - rewrite <- app_assoc in Bq. apply app_inv_head in Bq. cbn [app] in Bq. injection Bq as <- _.
    destruct (asg_slot _ _ _ _ _ _ _ A S Un) as (m' & Nm' & Sm'). congruence.
  - assert (X : below p (r ++ j :: x1) <> None) by (rewrite Bq, below_app; discriminate).
    clear - X B1 B2 Bq. revert p B1 B2 X Bq. induction r as [|a r IH]; intros p B1 B2 X Bq; [discriminate|].
    destruct p as [|b p]; [discriminate|]. cbn [below app] in *. injection Bq as <- Bq. rewrite Nat.eqb_refl in *.
    apply (IH p B1 B2 X Bq).
Qed.
Lemma asg_put T n p s U : shape T n -> sub T p = Some U -> okp n p -> asg T (ap T (Put p s) n) p s.
Proof.
  unfold ap. cbn [place]. revert T n. induction p as [|i p IH]; intros T n H S O; cbn [sub walk asg okp] in *.
  - split; reflexivity.
  - destruct (kid T i) as [W|] eqn:K; [|discriminate]. destruct O as [O1 O2].
    destruct (nth_error (arr n) i) as [c|] eqn:N; [|contradiction]. cbn [kindof slotof arr].
    split; [exact O1|]. split; [intros Un; rewrite Un; reflexivity|].
    exists W, (walk (act (Put p s)) W p c). rewrite nth_upd, Nat.eqb_refl, N.
    split; [reflexivity|]. split; [reflexivity|].
    destruct (shape_kid _ _ _ _ H K) as (c' & N' & Sc). rewrite N in N'. injection N' as <-. apply (IH W c Sc S O2).
Qed.
Lemma asg_keep g T n q p s : below q p = None -> below p q = None -> union_split T q p = false ->
  asg T n p s -> asg T (walk g T q n) p s.
Proof.
  revert T n p. induction q as [|i q IH]; intros T n p B B2 Sp A; cbn [below] in B; [discriminate|].
  destruct p as [|j p]; [discriminate|]. cbn [below union_split walk] in *. rewrite (Nat.eqb_sym j i) in B2.
  destruct (kid T i) as [U|] eqn:K; [|exact A]. destruct (nth_error (arr n) i) as [c|] eqn:N; [|exact A].
  cbn [asg] in A. destruct A as (A1 & A2 & W & d & Kj & Nj & A3).
  cbn [asg kindof slotof arr]. split; [exact A1|]. rewrite nth_upd. destruct (Nat.eqb i j) eqn:D.
  - apply Nat.eqb_eq in D. subst j. split; [intros Un; rewrite Un; reflexivity|].
    rewrite K in Kj. injection Kj as <-. rewrite N in Nj. injection Nj as <-.
    exists U, (walk g U q c). rewrite N. split; [exact K|]. split; [reflexivity|]. apply IH; assumption.
  - rewrite Sp. split; [congruence|]. exists W, d. auto.
Qed.

(** * The history of a tree *)
Definition valid T v : Prop :=
  exists U, sub T (place v) = Some U /\ match v with Put _ _ => is_arr U = false | Clear _ => True end.
Lemma tidy_app (l l' : list ev) : tidy (l ++ l') -> tidy l.
Proof. intros H a v b w c ->. apply (H a v b w (c ++ l')). rewrite <- !app_assoc. cbn [app]. rewrite <- app_assoc. reflexivity. Qed.
Lemma tidy_last (l : list ev) w v : tidy (l ++ [w]) -> In v l -> apart v w.
Proof.
  intros H Hi. apply in_split in Hi. destruct Hi as (a & b & ->). apply (H a v b w []).
  rewrite <- app_assoc. reflexivity.
Qed.

Theorem history T l : Forall (valid T) l -> tidy l ->
  okev T (new T) l /\
  (forall p m, nd (aps T l (new T)) p = Some m -> kindof m = KExpr -> exists s, slotof m = SExp s /\ In (Put p s) l) /\
  (forall p m U, sub T p = Some U -> nd (aps T l (new T)) p = Some m -> kindof m = KList -> is_scalar U = false) /\
  (forall p m U, sub T p = Some U -> is_scalar U = false -> nd (aps T l (new T)) p = Some m -> kindof m = KNone -> False).
Proof.
  induction l as [|v l IH] using rev_ind; intros V Ti.
  - cbn [okev aps]. split; [exact Logic.I|].
    assert (G : forall p m, nd (@new E T) p = Some m -> exists U, sub T p = Some U /\ m = new U).
    { intros p. generalize T. induction p as [|i p IHp]; intros T' m N; cbn [nd sub] in *.
      - injection N as <-. eauto.
      - destruct (nth_error (arr (@new E T')) i) as [c|] eqn:Nc; [|discriminate].
        assert (L : i < kids T') by (rewrite <- new_kids; apply nth_error_Some; congruence).
        destruct (kid_ex _ _ L) as (W & K). rewrite K. rewrite (new_kid _ _ _ K) in Nc. injection Nc as <-. apply IHp, N. }
    split; [|split].
    + intros p m N K. destruct (G p m N) as (U & _ & ->). rewrite new_kind in K. destruct (is_scalar U); discriminate.
    + intros p m U S N K. destruct (G p m N) as (U' & S' & ->). rewrite S in S'. injection S' as <-.
      rewrite new_kind in K. destruct (is_scalar U); [discriminate|reflexivity].
    + intros p m U S Ns N K. destruct (G p m N) as (U' & S' & ->). rewrite S in S'. injection S' as <-.
      rewrite new_kind, Ns in K. discriminate.
  - apply Forall_app in V. destruct V as [V Vv]. inversion_clear Vv as [|? ? Hv _]. destruct Hv as (W & SW & AW).
    destruct (IH V (tidy_app _ _ Ti)) as (Ok & Ex & Ls & Nn). clear IH.
    set (n := aps T l (new T)) in *.
    assert (Sh : shape T n) by (apply aps_shape, new_shape).
    assert (Okp : okp n (place v)).
    { apply (okp_intro T); [exact Sh|congruence|]. intros r i r' m Q N.
      assert (Sr : exists U, sub T r = Some U /\ is_scalar U = false).
      { rewrite Q in SW. destruct (sub T r) as [U|] eqn:Sr.
        - exists U. split; [reflexivity|]. rewrite (sub_app _ _ _ _ Sr) in SW. cbn [sub] in SW. destruct U; [discriminate|reflexivity..].
        - exfalso. clear - SW Sr. revert T SW Sr. induction r as [|a r IHr]; intros T SW Sr; cbn [sub app] in *; [discriminate|].
          destruct (kid T a); [apply (IHr _ SW Sr)|discriminate]. }
      destruct Sr as (U & Sr & Ns).
      destruct (kindof m) eqn:K; [exfalso; apply (Nn r m U); assumption|reflexivity|].
      exfalso. destruct (Ex r m N K) as (s & _ & Hi). pose proof (tidy_last _ _ _ Ti Hi) as Ap.
      destruct Ap as [[A1 A2]|[(p & A1 & A2)|(p & s' & A1 & A2)]].
      - cbn [place] in A1. rewrite Q, below_app in A1. discriminate.
      - discriminate.
      - subst v. cbn [place] in *. destruct (below p r) as [z|] eqn:Z; [|congruence].
        apply below_inv in Z. rewrite Q in Z. apply (f_equal (@length nat)) in Z. rewrite !app_length in Z. cbn [length] in Z. lia. }
    rewrite okev_app, aps_app. cbn [okev aps]. fold n.
    split; [split; [exact Ok|split; [exact Okp|exact Logic.I]]|].
    assert (Cases : forall p m, nd (ap T v n) p = Some m ->
      (p = place v /\ exists m0, nd n p = Some m0 /\ m = act v W m0) \/
      (exists m0, nd n p = Some m0 /\ kindof m = kindof m0 /\ (kindof m = KExpr -> slotof m = slotof m0))).
    { intros p m N. unfold ap in N. destruct (below_cases p (place v)) as [(r & Q)|[(i & r & Q)|[B1 B2]]].
      - rewrite Q in N. destruct (nd_walk_below (act v) T n (place v) r W Sh SW) as (m0 & N0 & N1). rewrite N1 in N.
        destruct r as [|i r].
        + left. rewrite app_nil_r in Q. split; [exact Q|]. exists m0. rewrite Q. cbn [nd] in N. injection N as <-. auto.
        + right. exists m. split; [|split; [reflexivity|reflexivity]]. rewrite Q.
          rewrite (nd_app _ _ _ _ N0). cbn [nd] in *. rewrite act_arr in N. exact N.
      - right. rewrite Q in *. assert (Sp : exists U, sub T p = Some U).
        { destruct (sub T p) eqn:Sp; [eauto|]. exfalso. clear - SW Sp. revert T SW Sp. induction p as [|a p IHr]; intros T SW Sp; cbn [sub app] in *; [discriminate|].
          destruct (kid T a); [apply (IHr _ SW Sp)|discriminate]. }
        destruct Sp as (U & Sp). destruct (nd_walk_above (act v) T n p i r U W Sh Sp SW) as (m0 & ms & N0 & N1).
        rewrite N1 in N. injection N as <-. exists m0. split; [exact N0|]. split; [reflexivity|]. cbn [kindof].
        intros K. exfalso. destruct (okp_nd n _ p i r Okp eq_refl) as (m1 & N2 & K1). congruence.
      - right. rewrite nd_walk_apart in N by assumption. exists m. auto. }
    split; [|split].
    + intros p m N K. destruct (Cases p m N) as [(Qp & m0 & N0 & ->)|(m0 & N0 & K0 & S0)].
      * destruct v as [q|q s]; cbn [act place] in *; subst q.
        -- exfalso. assert (K0 : kindof m0 = KExpr) by (unfold clr in K; destruct (is_union W); [destruct m0; exact K|exact K]).
           destruct (Ex p m0 N0 K0) as (s & _ & Hi). pose proof (tidy_last _ _ _ Ti Hi) as Ap.
           destruct Ap as [[A1 A2]|[(p' & A1 & A2)|(p' & s' & A1 & A2)]]; [|discriminate..].
           cbn [place] in A1. rewrite <- (app_nil_r p) in A1 at 2. rewrite below_app in A1. discriminate.
        -- exists s. split; [reflexivity|]. apply in_or_app. right. left. reflexivity.
      * destruct (Ex p m0 N0) as (s & Sl & Hi); [congruence|]. exists s. split; [rewrite S0; assumption|].
        apply in_or_app. left. exact Hi.
    + intros p m U S N K. destruct (Cases p m N) as [(Qp & m0 & N0 & ->)|(m0 & N0 & K0 & S0)].
      * apply (Ls p m0 U S N0). destruct v; cbn [act] in K; [|discriminate]. unfold clr in K. destruct (is_union W), m0; exact K.
      * apply (Ls p m0 U S N0). congruence.
    + intros p m U S Ns N K. destruct (Cases p m N) as [(Qp & m0 & N0 & ->)|(m0 & N0 & K0 & S0)].
      * apply (Nn p m0 U S Ns N0). destruct v; cbn [act] in K; [|discriminate]. unfold clr in K. destruct (is_union W), m0; exact K.
      * apply (Nn p m0 U S Ns N0). congruence.
Qed.

(** * Values *)
Lemma final_snoc T l v x : final T (l ++ [v]) x = match concern T v x with Some w => w | None => final T l x end.
Proof. unfold final. rewrite fold_left_app. reflexivity. Qed.
Lemma final_cases T l x :
  (final T l x = VZero /\ Forall (fun v => concern T v x = None) l) \/
  (exists l1 v l2, l = l1 ++ v :: l2 /\ concern T v x = Some (final T l x) /\ Forall (fun v => concern T v x = None) l2).
Proof.
  induction l as [|v l IH] using rev_ind; [left; split; [reflexivity|constructor]|].
  rewrite final_snoc. destruct (concern T v x) as [w|] eqn:C.
  - right. exists l, v, []. repeat split; [exact C|constructor].
  - destruct IH as [[Z F]|(l1 & u & l2 & -> & C1 & F)].
    + left. split; [exact Z|]. apply Forall_app. split; [exact F|]. constructor; [exact C|constructor].
    + right. exists l1, u, (l2 ++ [v]). rewrite <- app_assoc. repeat split; [exact C1|].
      apply Forall_app. split; [exact F|]. constructor; [exact C|constructor].
Qed.
Lemma final_none T l x : Forall (fun v => concern T v x = None) l -> final T l x = VZero.
Proof.
  induction l as [|v l IH] using rev_ind; intros F; [reflexivity|]. rewrite final_snoc.
  apply Forall_app in F. destruct F as [F Fv]. inversion_clear Fv as [|? ? C _]. rewrite C. apply IH, F.
Qed.
Lemma final_one T l x (w : value E) : (forall v, In v l -> concern T v x = None \/ concern T v x = Some w) ->
  (exists v, In v l /\ concern T v x = Some w) -> final T l x = w.
Proof.
  induction l as [|v l IH] using rev_ind; intros A (u & Hi & C); [destruct Hi|]. rewrite final_snoc.
  destruct (A v) as [N|S]; [apply in_or_app; right; left; reflexivity| |].
  - rewrite N. apply IH.
    + intros y Hy. apply A, in_or_app. left. exact Hy.
    + exists u. split; [|exact C]. apply in_app_or in Hi. destruct Hi as [Hi|[<-|[]]]; [exact Hi|congruence].
  - rewrite S. reflexivity.
Qed.
Lemma concern_none T v x : concern T v x = None <-> below (place v) x = None /\ union_split T (place v) x = false.
Proof.
  unfold concern. destruct (below (place v) x) as [q|]; [split; [discriminate|intros [? _]; discriminate]|].
  destruct (union_split T (place v) x); split; try discriminate; auto. intros [_ ?]. discriminate.
Qed.
Lemma concern_zero T v x : concern T v x = Some VZero -> exists p, v = Clear p /\ below p x <> None.
Proof.
  unfold concern. destruct v as [p|p s]; cbn [place]; destruct (below p x) eqn:B.
  - intros _. exists p. split; [reflexivity|congruence].
  - destruct (union_split T p x); discriminate.
  - discriminate.
  - destruct (union_split T p x); discriminate.
Qed.
Lemma concern_src T v x s q : concern T v x = Some (VSrc s q) -> exists p, v = Put p s /\ below p x = Some q.
Proof.
  unfold concern. destruct v as [p|p s']; cbn [place]; destruct (below p x) eqn:B.
  - discriminate.
  - destruct (union_split T p x); discriminate.
  - intros H. injection H as <- <-. eauto.
  - destruct (union_split T p x); discriminate.
Qed.
Lemma tidy_pair (l1 : list ev) v l2 w l : l = l1 ++ v :: l2 -> tidy l -> In w l2 -> apart v w.
Proof. intros -> H Hi. apply in_split in Hi. destruct Hi as (a & b & ->). apply (H l1 v a w b). reflexivity. Qed.
Lemma tidy_pair2 (l1 : list ev) v l2 w l : l = l1 ++ v :: l2 -> tidy l -> In w l1 -> apart w v.
Proof. intros -> H Hi. apply in_split in Hi. destruct Hi as (a & b & ->). apply (H a w b v l2). rewrite <- app_assoc. reflexivity. Qed.

Lemma asg_keeps T l n p s x :
  asg T n p s -> below p x <> None -> Forall (fun v => concern T v x = None) l ->
  (forall w, In w l -> apart (Put p s) w) -> asg T (aps T l n) p s.
Proof.
  revert n. induction l as [|v l IH]; intros n A B F Ap; [exact A|].
  inversion_clear F as [|? ? C F']. cbn [aps]. apply IH; [|exact B|exact F'|intros w Hw; apply Ap; right; exact Hw].
  apply concern_none in C. destruct C as [C1 C2].
  destruct (below p x) as [q|] eqn:Bq; [|congruence]. apply below_inv in Bq. subst x.
  assert (Bp : below (place v) p = None).
  { destruct (below (place v) p) eqn:D; [|reflexivity]. exfalso. apply (below_trans (place v) p q); [congruence|exact C1]. }
  assert (Sp : union_split T (place v) p = false).
  { destruct (union_split T (place v) p) eqn:D; [|reflexivity]. apply (split_app _ _ _ q) in D. congruence. }
  apply asg_keep; [exact Bp| |exact Sp|exact A].
  destruct (Ap v (or_introl eq_refl)) as [[A1 _]|[(p' & A1 & _)|(p' & s' & A1 & A2)]]; [exact A1|discriminate|].
  subst v. cbn [place] in *. congruence.
Qed.
Lemma slot_keeps T l n r i x U W : shape T n -> Forall (valid T) l ->
  sub T r = Some U -> is_union U = true -> sub T x = Some W -> below (r ++ [i]) x <> None ->
  Forall (fun v => concern T v x = None) l ->
  (exists m, nd n r = Some m /\ slotof m = SMem i) ->
  exists m, nd (aps T l n) r = Some m /\ slotof m = SMem i.
Proof.
  revert n. induction l as [|v l IH]; intros n Sh V S Un Sx B F H; [exact H|].
  inversion_clear F as [|? ? C F']. inversion_clear V as [|? ? Vv V']. cbn [aps].
  apply IH; auto; [apply ap_shape, Sh|].
  apply concern_none in C. destruct C as [C1 C2].
  destruct (below (r ++ [i]) x) as [z|] eqn:Bz; [|congruence]. apply below_inv in Bz. rewrite <- app_assoc in Bz. cbn [app] in Bz. subst x.
  destruct H as (m & N & Sl). unfold ap.
  destruct (below_cases r (place v)) as [(r' & Q)|[(j & r' & Q)|[B1 B2]]].
  - exfalso. rewrite Q, <- app_assoc, below_app in C1. discriminate.
  - destruct Vv as (X & SX & _). rewrite Q in *.
    destruct (nd_walk_above (act v) T n r j r' U X Sh S SX) as (m0 & ms & _ & N1). rewrite N1, Un.
    eexists. split; [reflexivity|]. cbn [slotof].
    destruct (Nat.eq_dec j i) as [->|Nj]; [reflexivity|].
    rewrite (split_intro T r j i r' z U S Un Nj) in C2. discriminate.
  - rewrite nd_walk_apart by assumption. eauto.
Qed.

(** What is assigned at the end. *)
Theorem assigned T l : Forall (valid T) l -> tidy l ->
  exists A, assigns T (aps T l (new T)) = ROk A /\
  forall x b, sub T x = Some (IScal b) -> final T l x <> VOther -> final T A x = final T l x.
Proof.
  intros V Ti. destruct (history T l V Ti) as (Ok & Ex & Ls & Nn).
  set (n := aps T l (new T)) in *.
  assert (Sh : shape T n) by (apply aps_shape, new_shape).
  assert (Sa : sane T n).
  { intros p m U S N. split; [|apply (Ls p m U S N)]. intros K. destruct (Ex p m N K) as (s & Sl & Hi). split; [|eauto].
    rewrite Forall_forall in V. destruct (V _ Hi) as (U' & S' & Ar). cbn [place] in S'. congruence. }
  destruct (assigns_spec n T Sh Sa) as (A & QA & HA). exists A. split; [exact QA|].
  intros x b Sx No. destruct (final_cases T l x) as [[Z F]|(l1 & v & l2 & Q & C & F)].
  - rewrite Z. apply final_none, Forall_forall. intros w Hw. apply HA in Hw. destruct Hw as (p & s & -> & As).
    destruct (asg_nd _ _ _ _ As) as (m & N & K & Sl). destruct (Ex p m N K) as (s' & Sl' & Hi).
    rewrite Forall_forall in F. apply F in Hi. apply concern_none in Hi. apply concern_none. exact Hi.
  - destruct (final T l x) as [|s q|] eqn:Fv; [| |congruence].
    + (* zero: nothing of it assigned *)
      apply concern_zero in C. destruct C as (c & -> & Bc).
      assert (Hr : forall p s, In (Put p s) l -> below p c = None /\ below c p = None \/ concern T (Put p s) x = None).
      { intros p s Hi. rewrite Q in Hi. apply in_app_or in Hi. destruct Hi as [Hi|[Hi|Hi]]; [|discriminate|].
        - left. pose proof (tidy_pair2 _ _ _ _ _ Q Ti Hi) as Ap. cbn [place] in Ap.
          destruct Ap as [Ap|[(p' & A1 & _)|(p' & s' & A1 & _)]]; [exact Ap|discriminate..].
        - right. rewrite Forall_forall in F. apply F, Hi. }
      apply final_none, Forall_forall. intros w Hw. apply HA in Hw. destruct Hw as (p & s & -> & As).
      destruct (asg_nd _ _ _ _ As) as (m & N & K & Sl). destruct (Ex p m N K) as (s' & Sl' & Hi).
      rewrite Sl in Sl'. injection Sl' as <-.
      destruct (Hr p s Hi) as [[B1 B2]|Hn]; [|exact Hn].
      apply concern_none. cbn [place].
      destruct (below c x) as [z|] eqn:Bz; [|congruence]. apply below_inv in Bz.
      split.
      * destruct (below p x) as [y|] eqn:Bp; [|reflexivity]. exfalso. apply below_inv in Bp.
        rewrite Bz in Bp. clear - Bp B1 B2. revert p B1 B2 Bp. induction c as [|a c IH]; intros [|d p] B1 B2 Bp; cbn [below app] in *; try discriminate.
        injection Bp as <- Bp. rewrite Nat.eqb_refl in *. apply (IH p B1 B2 Bp).
      * destruct (union_split T p x) eqn:Us; [|reflexivity]. exfalso.
        destruct (split_inv _ _ _ Us) as (r & i & j & p' & x' & U & Qp & Qx & Nij & Sr & Un).
        destruct (below_cases r c) as [(r' & Qr)|[(k & r' & Qr)|[Br1 Br2]]].
        -- (* c above r *) rewrite Qp, Qr, <- app_assoc, below_app in B2. discriminate.
        -- (* c in the member of x *)
           assert (k = j). { rewrite Qr in Bz. rewrite Qx in Bz. rewrite <- app_assoc in Bz. apply app_inv_head in Bz. cbn [app] in Bz. congruence. }
           subst k. rewrite Qp in As. destruct (asg_slot _ _ _ _ _ _ _ As Sr Un) as (m1 & N1 & Sl1).
           destruct (slot_keeps T l2 (ap T (Clear c) (aps T l1 (new T))) r j x U (IScal b)) as (m2 & N2 & Sl2); auto.
           ++ apply ap_shape, aps_shape, new_shape.
           ++ rewrite Q in V. apply Forall_app in V. destruct V as [_ V]. inversion V; assumption.
           ++ rewrite Qx. replace (r ++ j :: x') with ((r ++ [j]) ++ x') by (rewrite <- app_assoc; reflexivity). rewrite below_app. discriminate.
           ++ unfold ap. cbn [place]. rewrite Forall_forall in V. destruct (V (Clear c)) as (X & SX & _); [rewrite Q; apply in_or_app; right; left; reflexivity|].
              cbn [place] in SX. rewrite Qr in SX |- *. 
              destruct (nd_walk_above (act (Clear (r ++ j :: r'))) T (aps T l1 (new T)) r j r' U X (aps_shape _ _ _ (new_shape T)) Sr SX) as (m0 & ms & _ & Nw).
              rewrite Nw, Un. eexists. split; reflexivity.
           ++ assert (Qn : n = aps T l2 (ap T (Clear c) (aps T l1 (new T)))) by (unfold n; rewrite Q, aps_app; reflexivity).
              rewrite <- Qn in N2. congruence.
        -- rewrite Qx in Bz. clear - Bz Br1 Br2. revert c Br1 Br2 Bz. induction r as [|a r IH]; intros [|d c] B1 B2 Bp; cbn [below app] in *; try discriminate.
           injection Bp as <- Bp. rewrite Nat.eqb_refl in *. apply (IH c B1 B2 Bp).
    + apply concern_src in C. destruct C as (p & -> & Bp).
      assert (As : asg T n p s).
      { unfold n. rewrite Q, aps_app. cbn [aps]. apply asg_keeps with (x := x); [|congruence|exact F|].
        - rewrite Q in V, Ok. apply Forall_app in V. destruct V as [_ V]. inversion_clear V as [|? ? (U & SU & _) _].
          apply okev_app in Ok. destruct Ok as [_ [Ok _]].
          apply asg_put with (U := U); [apply aps_shape, new_shape|exact SU|exact Ok].
        - intros w Hw. apply (tidy_pair _ _ _ _ _ Q Ti Hw). }
      apply final_one.
      * intros w Hw. apply HA in Hw. destruct Hw as (p' & s' & -> & As').
        pose proof (asg_nosplit _ _ _ _ _ _ x As As' ltac:(congruence)) as Ns.
        unfold concern. cbn [place]. rewrite Ns. destruct (below p' x) as [q'|] eqn:Bp'; [|left; reflexivity].
        right. destruct (asg_unique _ _ _ _ _ _ x As As') as [-> ->]; [congruence..|]. congruence.
      * exists (Put p s). split; [apply HA; eauto|]. unfold concern. cbn [place]. rewrite Bp. reflexivity.
Qed.
End Tree.
