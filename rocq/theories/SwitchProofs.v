(** Proofs about switch. *)
From Coq Require Import ZArith List Bool Lia.
From Verif Require Import Base BitLemmas IntSpec IntLemmas X86 CgModel CgLemmas CgSeq SwitchSpec SwitchModel.
Import ListNotations.
Local Open Scope Z_scope.

Lemma sext_range n z : 1 <= n -> - 2 ^ (n - 1) <= sext n z < 2 ^ (n - 1).
Proof. intros. rewrite sx_sext by auto. apply sx_range; auto. Qed.
Lemma sext_id n z : 1 <= n -> - 2 ^ (n - 1) <= z < 2 ^ (n - 1) -> sext n z = z.
Proof. intros. rewrite sx_sext by auto. apply sx_id; auto. Qed.
Lemma sext_mod n z : 1 <= n -> sext n z mod 2 ^ n = z mod 2 ^ n.
Proof. intros. rewrite sx_sext by auto. apply sx_mod; auto. Qed.

Lemma In_upd {A} (l : list A) : forall i x y, (i < length l)%nat ->
  (In y (upd l i x) <-> y = x \/ exists j, j <> i /\ nth_error l j = Some y).
Proof.
  induction l as [|a l IH]; intros i x y L; [cbn in L; lia|].
  destruct i; cbn [upd In].
  - split.
    + intros [<-|H]; [auto|]. right. apply In_nth_error in H. destruct H as [j H]. exists (S j). split; [lia|exact H].
    + intros [->|[j [N H]]]; [auto|]. destruct j; [congruence|]. right. eapply nth_error_In. exact H.
  - cbn in L. specialize (IH i x y ltac:(lia)). split.
    + intros [<-|H]; [right; exists O; split; [lia|reflexivity]|]. apply IH in H.
      destruct H as [->|[j [N H]]]; [auto|]. right. exists (S j). split; [lia|exact H].
    + intros [->|[j [N H]]]; [right; apply IH; auto|]. destruct j as [|j]; [cbn in H; injection H as <-; auto|].
      right. apply IH. right. exists j. split; [lia|exact H].
Qed.

Section Type_.
Variable t : ctype.
Hypothesis T : ctype_ok t.

Definition u64 : bool := ct_uns t && (ct_size t =? 8).
Definition key (z : Z) : Z := if u64 then trunc 64 z else z.
Definition dom (z : Z) : Prop :=
  - 2 ^ 63 <= z < 2 ^ 63 /\
  (ct_size t <> 8 -> if ct_uns t then 0 <= z < 2 ^ 32 else - 2 ^ 31 <= z < 2 ^ 31).
Definition cont (c : crange) (x : Z) : Prop := key (cr_lo c) <= x <= key (cr_hi c).

Lemma less_eq_key a b : less_eq t a b = (key a <=? key b).
Proof. unfold less_eq, key, u64. destruct (ct_uns t && (ct_size t =? 8)); reflexivity. Qed.
Lemma less_eq_iff a b : less_eq t a b = true <-> key a <= key b.
Proof. rewrite less_eq_key. apply Z.leb_le. Qed.

Lemma size_cases : ct_size t = 8 /\ (ct_size t <=? 4) = false \/ ct_size t <> 8 /\ (ct_size t <=? 4) = true /\ ct_bits t <= 32.
Proof.
  destruct T as [[E|[E|[E|[E|[]]]]] [B W]]; rewrite <- E in *; cbn; (left; split; lia) || (right; repeat split; lia).
Qed.

Lemma narrow_dom z : - 2 ^ 63 <= z < 2 ^ 63 -> dom (narrow t z).
Proof.
  intros R. unfold dom, narrow. destruct size_cases as [[E ->]|[N [-> B]]].
  - split; [exact R|congruence].
  - destruct (ct_uns t).
    + pose proof (mod_bound z 32 ltac:(lia)) as Q. unfold trunc. change (2 ^ 32) with 4294967296 in *. split; [lia|auto].
    + pose proof (sext_range 32 z ltac:(lia)) as Q. change (2 ^ (32 - 1)) with 2147483648 in Q. split; [lia|intros _; lia].
Qed.

Lemma key_range a : dom a -> if u64 then 0 <= key a < 2 ^ 64 else - 2 ^ 63 <= key a < 2 ^ 63.
Proof. intros [D _]. unfold key. destruct u64; [apply mod_bound; lia|exact D]. Qed.
Lemma key_mod a : key a mod 2 ^ 64 = a mod 2 ^ 64.
Proof. unfold key, trunc. destruct u64; [apply Z.mod_mod; lia|reflexivity]. Qed.
Lemma key_inj a b : dom a -> dom b -> key a = key b -> a = b.
Proof.
  intros [Da _] [Db _] E. assert (M : a mod 2 ^ 64 = b mod 2 ^ 64) by (rewrite <- (key_mod a), <- (key_mod b), E; reflexivity).
  rewrite <- (sext_id 64 a), <- (sext_id 64 b) by (cbn; lia). unfold sext. rewrite M. reflexivity.
Qed.

Lemma adjacent a b : dom a -> dom b ->
  (less_eq t a b && (trunc 64 (trunc 64 a + 1) =? trunc 64 b) = true <-> key a + 1 = key b).
Proof.
  intros Da Db. rewrite andb_true_iff, less_eq_iff, Z.eqb_eq. pose proof (key_range a Da) as Ra. pose proof (key_range b Db) as Rb.
  unfold trunc. rewrite <- (key_mod a), <- (key_mod b). rewrite Zplus_mod_idemp_l.
  generalize dependent (key a). generalize dependent (key b). intros y Ry x Rx.
  assert (X : x <= y -> x + 1 - y <= 1 /\ - 2 ^ 64 < x + 1 - y) by (destruct u64; lia). clear Rx Ry. split.
  - intros [L E]. specialize (X L).
    assert (D : (x + 1 - y) mod 2 ^ 64 = 0) by (rewrite Zminus_mod, E, Z.sub_diag; reflexivity).
    apply Z.mod_divide in D; [|lia]. destruct D as [q Q]. assert (q = 0) by lia. lia.
  - intros <-. split; [lia|reflexivity].
Qed.

Lemma duplicated_iff lo hi c : key lo <= key hi -> key (cr_lo c) <= key (cr_hi c) ->
  (duplicated t lo hi c = true <-> exists x, key lo <= x <= key hi /\ cont c x).
Proof.
  intros A B. unfold duplicated, cont. rewrite orb_true_iff, !andb_true_iff, !less_eq_iff. split.
  - intros [H|H]; [exists (key lo)|exists (key (cr_lo c))]; lia.
  - intros [x H]. lia.
Qed.

(** The list of ranges stands for the relation [A] between labels and values. *)
Record inv (cs : list crange) (A : label -> Z -> Prop) : Prop := {
  i_ok : forall c, In c cs -> dom (cr_lo c) /\ dom (cr_hi c) /\ key (cr_lo c) <= key (cr_hi c);
  i_act : forall x l, (exists c, In c cs /\ cr_label c = Some l /\ cont c x) <-> A l x;
  i_all : forall c x, In c cs -> cont c x -> exists l, A l x }.

Lemma find_adj_spec l lo hi : dom lo -> dom hi -> key lo <= key hi -> forall all cs i la ha a b,
  (forall c, In c cs -> dom (cr_lo c) /\ dom (cr_hi c)) ->
  (forall j c, nth_error cs j = Some c -> nth_error all (i + j) = Some c) ->
  (forall k, la = Some k -> exists c, nth_error all k = Some c /\ cr_label c = Some l /\ key (cr_hi c) + 1 = key lo) ->
  (forall k, ha = Some k -> exists c, nth_error all k = Some c /\ cr_label c = Some l /\ key hi + 1 = key (cr_lo c)) ->
  find_adj t l lo hi cs i la ha = (a, b) ->
  (forall k, a = Some k -> exists c, nth_error all k = Some c /\ cr_label c = Some l /\ key (cr_hi c) + 1 = key lo) /\
  (forall k, b = Some k -> exists c, nth_error all k = Some c /\ cr_label c = Some l /\ key hi + 1 = key (cr_lo c)).
Proof.
  intros Dl Dh _ all cs. induction cs as [|c cs IH]; intros i la ha a b D N LA HA H; cbn [find_adj] in H.
  { injection H as <- <-. auto. }
  assert (D' : forall c, In c cs -> dom (cr_lo c) /\ dom (cr_hi c)) by (intros; apply D; right; auto).
  assert (N' : forall j c, nth_error cs j = Some c -> nth_error all (S i + j) = Some c).
  { intros j c0 E. replace (S i + j)%nat with (i + S j)%nat by lia. apply N. exact E. }
  assert (N0 : nth_error all i = Some c) by (rewrite <- (Nat.add_0_r i); apply N; reflexivity).
  destruct (D c (or_introl eq_refl)) as [D1 D2].
  destruct (cr_label c) as [l'|] eqn:EL; [|eapply IH; eauto].
  destruct (label_eqb l' l) eqn:LE; cbn [negb] in H; [|injection H as <- <-; auto].
  apply label_eqb_eq in LE. subst l'.
  destruct (less_eq t (cr_hi c) lo && _) eqn:E1.
  { apply adjacent in E1; auto. eapply IH; [exact D'|exact N'| |exact HA|exact H].
    intros k [= <-]. exists c. auto. }
  destruct (less_eq t hi (cr_lo c) && _) eqn:E2; [|eapply IH; eauto].
  apply adjacent in E2; auto. eapply IH; [exact D'|exact N'|exact LA| |exact H].
  intros k [= <-]. exists c. auto.
Qed.

Lemma upd_at_In cs i f c : nth_error cs i = Some c -> forall y,
  In y (upd_at cs i f) <-> y = f c \/ exists j, j <> i /\ nth_error cs j = Some y.
Proof.
  intros E y. unfold upd_at. rewrite E. apply In_upd. apply nth_error_Some. congruence.
Qed.
Lemma upd_at_nth_other cs i f j : j <> i -> nth_error (upd_at cs i f) j = nth_error cs j.
Proof.
  intros N. unfold upd_at. destruct (nth_error cs i) as [c|]; [|reflexivity]. generalize (f c). clear c f. revert i j N.
  induction cs as [|a cs IH]; intros i j N d; [destruct i; reflexivity|]. destruct i, j; cbn; auto; congruence.
Qed.
Lemma upd_at_nth_same cs i f c : nth_error cs i = Some c -> nth_error (upd_at cs i f) i = Some (f c).
Proof.
  intros E. unfold upd_at. rewrite E. generalize (f c). revert i E.
  induction cs as [|a cs IH]; intros i E d; destruct i; cbn in *; try discriminate; auto.
Qed.

(** One range takes in more values. *)
Lemma inv_replace cs A i c c' : inv cs A -> nth_error cs i = Some c -> dom (cr_lo c') -> dom (cr_hi c') ->
  key (cr_lo c') <= key (cr_hi c') -> cr_label c' = cr_label c -> (forall x, cont c x -> cont c' x) ->
  forall (l : label), cr_label c = Some l ->
  inv (upd_at cs i (fun _ => c')) (fun l' x => A l' x \/ l' = l /\ cont c' x).
Proof.
  intros [IO IA IL] E Dl Dh K EL MON l El. pose proof (upd_at_In cs i (fun _ => c') c E) as UI. constructor.
  - intros y Hy. apply UI in Hy. destruct Hy as [->|[j [_ Hy]]]; [auto|]. apply IO. eapply nth_error_In; eauto.
  - intros x l'. split.
    + intros [y [Hy [Ly Cy]]]. apply UI in Hy. destruct Hy as [->|[j [_ Hy]]].
      * right. split; [congruence|exact Cy].
      * left. apply IA. exists y. split; [eapply nth_error_In; eauto|auto].
    + intros [H|[-> H]].
      * apply IA in H. destruct H as [y [Hy [Ly Cy]]]. apply In_nth_error in Hy. destruct Hy as [j Hy].
        destruct (Nat.eq_dec j i) as [->|N].
        -- rewrite E in Hy. injection Hy as <-. exists c'. split; [apply UI; auto|]. split; [congruence|auto].
        -- exists y. split; [apply UI; right; eauto|auto].
      * exists c'. split; [apply UI; auto|]. split; [congruence|auto].
  - intros y x Hy Cy. apply UI in Hy. destruct Hy as [->|[j [_ Hy]]].
    + exists l. auto.
    + destruct (IL y x (nth_error_In _ _ Hy) Cy) as [l' ?]. exists l'. auto.
Qed.

(** A range whose values are all in another one with the same label is dropped. *)
Lemma inv_drop cs A i c : inv cs A -> nth_error cs i = Some c ->
  (exists j d, j <> i /\ nth_error cs j = Some d /\ cr_label d = cr_label c /\ forall x, cont c x -> cont d x) ->
  inv (upd_at cs i no_label) A.
Proof.
  intros [IO IA IL] E [j0 [d [N0 [E0 [L0 MON]]]]]. pose proof (upd_at_In cs i no_label c E) as UI. constructor.
  - intros y Hy. apply UI in Hy. destruct Hy as [->|[j [_ Hy]]].
    + apply (IO c). eapply nth_error_In; eauto.
    + apply IO. eapply nth_error_In; eauto.
  - intros x l'. split.
    + intros [y [Hy [Ly Cy]]]. apply UI in Hy. destruct Hy as [->|[j [_ Hy]]]; [discriminate|].
      apply IA. exists y. split; [eapply nth_error_In; eauto|auto].
    + intros H. apply IA in H. destruct H as [y [Hy [Ly Cy]]]. apply In_nth_error in Hy. destruct Hy as [j Hy].
      destruct (Nat.eq_dec j i) as [->|N].
      * rewrite E in Hy. injection Hy as <-. exists d. split; [apply UI; right; eauto|]. split; [congruence|auto].
      * exists y. split; [apply UI; right; eauto|auto].
  - intros y x Hy Cy. apply UI in Hy. destruct Hy as [->|[j [_ Hy]]].
    + apply (IL c x); [eapply nth_error_In; eauto|exact Cy].
    + apply (IL y x); [eapply nth_error_In; eauto|exact Cy].
Qed.

Lemma inv_ext cs (A B : label -> Z -> Prop) : (forall l x, A l x <-> B l x) -> inv cs A -> inv cs B.
Proof.
  intros E [IO IA IL]. constructor; [exact IO| |].
  - intros. rewrite <- E. apply IA.
  - intros c x H1 H2. destruct (IL c x H1 H2) as [l H]. exists l. apply E. exact H.
Qed.

Lemma inv_cons cs A l lo hi : inv cs A -> dom lo -> dom hi -> key lo <= key hi ->
  inv (mkcr (Some l) lo hi :: cs) (fun l' x => A l' x \/ l' = l /\ key lo <= x <= key hi).
Proof.
  intros [IO IA IL] Dl Dh K. constructor.
  - intros c [<-|H]; auto.
  - intros x l'. split.
    + intros [c [[<-|H] [L C]]]; [right; split; [cbn in L; congruence|exact C]|left; apply IA; eauto].
    + intros [H|[-> H]]; [apply IA in H; destruct H as [c [H1 H2]]; exists c; split; [right; exact H1|exact H2]|].
      eexists. split; [left; reflexivity|]. split; [reflexivity|exact H].
  - intros c x [<-|H] C; [exists l; auto|]. destruct (IL c x H C) as [l' ?]. exists l'. auto.
Qed.

(** What the entries' bounds are made of. *)
Definition bounds (cs : list crange) (P : Z -> Prop) : Prop := forall c, In c cs -> P (cr_lo c) /\ P (cr_hi c).

Lemma bounds_upd cs i f (P : Z -> Prop) : bounds cs P -> (forall c, nth_error cs i = Some c -> P (cr_lo (f c)) /\ P (cr_hi (f c))) ->
  bounds (upd_at cs i f) P.
Proof.
  intros B F c H. destruct (nth_error cs i) as [d|] eqn:E.
  - apply (upd_at_In cs i f d E) in H. destruct H as [->|[j [_ H]]]; [auto|]. apply B. eapply nth_error_In; eauto.
  - unfold upd_at in H. rewrite E in H. auto.
Qed.

(** Reading one case label: rejected when empty or when a value occurs already; otherwise the
    relation grows by exactly this range. *)
Lemma add_case opt s A l lo0 hi0 : inv (sw_cases s) A ->
  - 2 ^ 63 <= lo0 < 2 ^ 63 -> - 2 ^ 63 <= hi0 < 2 ^ 63 ->
  let lo := narrow t lo0 in let hi := narrow t hi0 in
  (key hi < key lo \/ (exists l' x, A l' x /\ key lo <= x <= key hi) -> add_item opt t s (ICase l lo0 hi0) = Abort) /\
  (key lo <= key hi -> (forall l' x, A l' x -> ~ key lo <= x <= key hi) ->
   exists cs', add_item opt t s (ICase l lo0 hi0) = Ok (mksw cs' (sw_default s)) /\
     inv cs' (fun l' x => A l' x \/ l' = l /\ key lo <= x <= key hi) /\
     forall P : Z -> Prop, bounds (sw_cases s) P -> P lo -> P hi -> bounds cs' P).
Proof.
  intros I R1 R2 lo hi. assert (Dl : dom lo) by (apply narrow_dom; auto). assert (Dh : dom hi) by (apply narrow_dom; auto).
  pose proof I as [IO IA IL].
  assert (EMP : negb (hi =? lo) && less_eq t hi lo = true <-> key hi < key lo).
  { rewrite andb_true_iff, negb_true_iff, Z.eqb_neq, less_eq_iff. split.
    - intros [N L]. assert (key hi <> key lo) by (intros Q; apply N, key_inj; auto). lia.
    - intros L. split; [intros Q; rewrite Q in L; lia|lia]. }
  assert (DUP : key lo <= key hi -> (existsb (duplicated t lo hi) (sw_cases s) = true <-> exists l' x, A l' x /\ key lo <= x <= key hi)).
  { intros K. rewrite existsb_exists. split.
    - intros [c [H D]]. apply duplicated_iff in D; auto; [|apply IO; auto]. destruct D as [x [X C]].
      destruct (IL c x H C) as [l' ?]. exists l', x. auto.
    - intros [l' [x [X C]]]. apply IA in X. destruct X as [c [H [_ D]]]. exists c. split; [exact H|].
      apply duplicated_iff; auto; [apply IO; auto|]. exists x. auto. }
  split.
  - cbn [add_item]. fold lo hi. intros H. destruct (negb (hi =? lo) && less_eq t hi lo) eqn:E1; [reflexivity|].
    assert (K : key lo <= key hi) by (destruct (Z_lt_le_dec (key hi) (key lo)) as [Q|Q]; [apply EMP in Q; congruence|exact Q]).
    destruct H as [H|H]; [lia|]. apply (DUP K) in H. rewrite H. reflexivity.
  - intros K ND. cbn [add_item]. fold lo hi. destruct (negb (hi =? lo) && less_eq t hi lo) eqn:E1; [pose proof (proj1 EMP eq_refl); lia|].
    destruct (existsb _ _) eqn:E2; [destruct (proj1 (DUP K) eq_refl) as [l' [x [X C]]]; exfalso; apply (ND l' x X C)|].
    destruct opt.
    2:{ eexists. split; [reflexivity|]. split; [apply inv_cons; auto|]. intros P B P1 P2 c [<-|H]; [auto|apply B; auto]. }
    destruct (find_adj t l lo hi (sw_cases s) 0 None None) as [la ha] eqn:FA.
    apply (find_adj_spec l lo hi Dl Dh K (sw_cases s)) in FA; try discriminate; [|intros c H; destruct (IO c H) as [? [? _]]; auto|auto].
    destruct FA as [LA HA]. destruct la as [a|].
    + destruct (LA a eq_refl) as [ca [Na [Ea Ka]]]. pose proof (IO ca (nth_error_In _ _ Na)) as [D1 [D2 D3]].
      destruct ha as [b|].
      * destruct (HA b eq_refl) as [cb [Nb [Eb Kb]]]. pose proof (IO cb (nth_error_In _ _ Nb)) as [D4 [D5 D6]].
        assert (AB : a <> b) by (intros ->; rewrite Na in Nb; injection Nb as <-; lia).
        rewrite Nb. eexists. split; [reflexivity|].
        set (c' := set_hi ca (cr_hi cb)).
        assert (EQ : upd_at (sw_cases s) a (fun c => set_hi c (cr_hi cb)) = upd_at (sw_cases s) a (fun _ => c')).
        { unfold upd_at. rewrite Na. reflexivity. }
        assert (CC : forall x, cont c' x <-> cont ca x \/ key lo <= x <= key hi \/ cont cb x).
        { intros x. unfold cont, c', set_hi. cbn [cr_lo cr_hi]. lia. }
        rewrite EQ. split.
        -- apply inv_drop with (c := cb).
           ++ eapply inv_ext; [|apply (inv_replace _ A a ca c' I Na) with (l := l); auto].
              ** intros l' x. cbn beta. rewrite CC. split; [|tauto]. intros [H|[-> [H|[H|H]]]]; auto.
                 --- left. apply IA. exists ca. split; [eapply nth_error_In; eauto|auto].
                 --- left. apply IA. exists cb. split; [eapply nth_error_In; eauto|auto].
              ** unfold c', set_hi. cbn [cr_lo cr_hi]. lia.
              ** intros x X. apply CC. auto.
           ++ rewrite upd_at_nth_other by auto. exact Nb.
           ++ exists a, c'. split; [exact AB|]. split; [apply (upd_at_nth_same _ _ (fun _ => c') ca); exact Na|].
              split; [cbn; congruence|]. intros x X. apply CC. auto.
        -- intros P B P1 P2. apply bounds_upd.
           ++ apply bounds_upd; [exact B|]. intros c H. cbn. split; [apply (B ca), (nth_error_In _ _ Na)|apply (B cb), (nth_error_In _ _ Nb)].
           ++ intros c H. rewrite upd_at_nth_other in H by auto. cbn. apply B. eapply nth_error_In; eauto.
      * eexists. split; [reflexivity|]. set (c' := set_hi ca hi).
        assert (EQ : upd_at (sw_cases s) a (fun c => set_hi c hi) = upd_at (sw_cases s) a (fun _ => c')).
        { unfold upd_at. rewrite Na. reflexivity. }
        assert (CC : forall x, cont c' x <-> cont ca x \/ key lo <= x <= key hi).
        { intros x. unfold cont, c', set_hi. cbn [cr_lo cr_hi]. lia. }
        rewrite EQ. split.
        -- eapply inv_ext; [|apply (inv_replace _ A a ca c' I Na) with (l := l); auto].
           ++ intros l' x. cbn beta. rewrite CC. split; [|tauto]. intros [H|[-> [H|H]]]; auto.
              left. apply IA. exists ca. split; [eapply nth_error_In; eauto|auto].
           ++ unfold c', set_hi. cbn [cr_lo cr_hi]. lia.
           ++ intros x X. apply CC. auto.
        -- intros P B P1 P2. apply bounds_upd; [exact B|]. intros c H. cbn. split; [apply (B ca), (nth_error_In _ _ Na)|exact P2].
    + destruct ha as [b|].
      * destruct (HA b eq_refl) as [cb [Nb [Eb Kb]]]. pose proof (IO cb (nth_error_In _ _ Nb)) as [D4 [D5 D6]].
        eexists. split; [reflexivity|]. set (c' := set_lo cb lo).
        assert (EQ : upd_at (sw_cases s) b (fun c => set_lo c lo) = upd_at (sw_cases s) b (fun _ => c')).
        { unfold upd_at. rewrite Nb. reflexivity. }
        assert (CC : forall x, cont c' x <-> cont cb x \/ key lo <= x <= key hi).
        { intros x. unfold cont, c', set_lo. cbn [cr_lo cr_hi]. lia. }
        rewrite EQ. split.
        -- eapply inv_ext; [|apply (inv_replace _ A b cb c' I Nb) with (l := l); auto].
           ++ intros l' x. cbn beta. rewrite CC. split; [|tauto]. intros [H|[-> [H|H]]]; auto.
              left. apply IA. exists cb. split; [eapply nth_error_In; eauto|auto].
           ++ unfold c', set_lo. cbn [cr_lo cr_hi]. lia.
           ++ intros x X. apply CC. auto.
        -- intros P B P1 P2. apply bounds_upd; [exact B|]. intros c H. cbn. split; [exact P1|apply (B cb), (nth_error_In _ _ Nb)].
      * eexists. split; [reflexivity|]. split; [apply inv_cons; auto|]. intros P B P1 P2 c [<-|H]; [auto|apply B; auto].
Qed.

(** ** The whole list of labels *)
Definition rel (is : list (item label)) (l : label) (x : Z) : Prop :=
  exists lo hi, In (ICase l lo hi) is /\ key (narrow t lo) <= x <= key (narrow t hi).
Definition kne (i : item label) : Prop :=
  match i with ICase _ lo hi => key (narrow t lo) <= key (narrow t hi) | IDefault _ => True end.
Definition kcomp (i j : item label) : Prop :=
  match i, j with
  | IDefault _, IDefault _ => False
  | ICase _ a b, ICase _ c d =>
      ~ exists x, key (narrow t a) <= x <= key (narrow t b) /\ key (narrow t c) <= x <= key (narrow t d)
  | _, _ => True
  end.
Definition consts64 (is : list (item label)) : Prop := forall z, In z (consts is) -> in_int64 z.
Record sinv (done : list (item label)) (s : sw) : Prop := {
  si_inv : inv (sw_cases s) (rel done);
  si_def : forall l, sw_default s = Some l <-> In (IDefault l) done;
  si_bnd : bounds (sw_cases s) (fun z => exists y, In y (consts done) /\ z = narrow t y) }.

Lemma rel_snoc_case done l lo hi l' x : rel (done ++ [ICase l lo hi]) l' x <->
  rel done l' x \/ l' = l /\ key (narrow t lo) <= x <= key (narrow t hi).
Proof.
  unfold rel. split.
  - intros [a [b [H R]]]. apply in_app_iff in H. destruct H as [H|[H|[]]]; [left; eauto|].
    injection H as <- <- <-. auto.
  - intros [[a [b [H R]]]|[-> R]]; [exists a, b|exists lo, hi]; (split; [apply in_app_iff; auto|exact R]).
    right. left. reflexivity.
Qed.
Lemma rel_snoc_def done l l' x : rel (done ++ [IDefault l]) l' x <-> rel done l' x.
Proof.
  unfold rel. split; intros [a [b [H R]]]; exists a, b; (split; [|exact R]).
  - apply in_app_iff in H. destruct H as [H|[H|[]]]; [exact H|discriminate].
  - apply in_app_iff. auto.
Qed.
Lemma consts_app (a b : list (item label)) : consts (a ++ b) = consts a ++ consts b.
Proof. apply flat_map_app. Qed.

Lemma kcomp_dec_case done l lo hi : consts64 [ICase l lo hi] -> consts64 done ->
  (forall l' x, rel done l' x -> ~ key (narrow t lo) <= x <= key (narrow t hi)) <->
  Forall (fun i => kcomp i (ICase l lo hi)) done.
Proof.
  intros _ _. rewrite Forall_forall. split.
  - intros H i Hi. destruct i as [l' a b|l']; [|exact Logic.I]. intros [x [X Y]]. apply (H l' x); [exists a, b; auto|exact Y].
  - intros H l' x [a [b [Hi X]]] Y. apply (H _ Hi). exists x. auto.
Qed.

Lemma add_items_ok opt is : forall done s, sinv done s -> consts64 done -> consts64 is ->
  (Forall kne is /\ ForallOrdPairs kcomp is /\ Forall (fun i => Forall (fun d => kcomp d i) done) is /\
     exists s', add_items opt t s is = Ok s' /\ sinv (done ++ is) s') \/
  (~ (Forall kne is /\ ForallOrdPairs kcomp is /\ Forall (fun i => Forall (fun d => kcomp d i) done) is) /\
     add_items opt t s is = Abort).
Proof.
  induction is as [|i is IH]; intros done s SI CD CI.
  { left. rewrite app_nil_r. repeat split; try constructor. exists s. split; [reflexivity|exact SI]. }
  assert (C1 : consts64 [i]) by (intros z Hz; apply CI; cbn [consts flat_map] in *; apply in_app_iff in Hz; apply in_app_iff; destruct Hz as [Hz|[]]; auto).
  assert (C2 : consts64 is) by (intros z Hz; apply CI; cbn [consts flat_map]; apply in_app_iff; auto).
  assert (CD' : consts64 (done ++ [i])) by (intros z Hz; rewrite consts_app in Hz; apply in_app_iff in Hz; destruct Hz; auto).
  assert (SPLIT : forall (H1 : kne i) (H2 : Forall (fun d => kcomp d i) done) s1, add_item opt t s i = Ok s1 ->
     sinv (done ++ [i]) s1 ->
    (Forall kne (i :: is) /\ ForallOrdPairs kcomp (i :: is) /\ Forall (fun i => Forall (fun d => kcomp d i) done) (i :: is) /\
       exists s', add_items opt t s (i :: is) = Ok s' /\ sinv (done ++ i :: is) s') \/
    (~ (Forall kne (i :: is) /\ ForallOrdPairs kcomp (i :: is) /\ Forall (fun i => Forall (fun d => kcomp d i) done) (i :: is)) /\
       add_items opt t s (i :: is) = Abort)).
  { intros H1 H2 s1 E S1. cbn [add_items]. rewrite E. cbn [bind].
    assert (AP : done ++ i :: is = (done ++ [i]) ++ is) by (rewrite <- app_assoc; reflexivity). rewrite AP.
    destruct (IH (done ++ [i]) s1 S1 CD' C2) as [[A [B [C [s' [D E']]]]]|[A B]].
    - left. split; [constructor; auto|]. split.
      + constructor; [|exact B]. rewrite Forall_forall in C |- *. intros j Hj. specialize (C j Hj).
        apply Forall_app in C. destruct C as [_ C]. inversion C; auto.
      + split; [|eauto]. constructor; [exact H2|]. rewrite Forall_forall in C |- *. intros j Hj. specialize (C j Hj).
        apply Forall_app in C. tauto.
    - right. split; [|exact B]. intros [X [Y Z]]. apply A. inversion X; subst. inversion Y; subst. inversion Z; subst.
      split; [auto|]. split; [auto|]. rewrite Forall_forall in *. intros j Hj. apply Forall_app. split; [auto|].
      constructor; [auto|constructor]. }
  destruct SI as [SV SD SB]. destruct i as [l lo hi|l].
  - assert (R1 : in_int64 lo) by (apply C1; left; reflexivity). assert (R2 : in_int64 hi) by (apply C1; right; left; reflexivity).
    destruct (add_case opt s (rel done) l lo hi SV R1 R2) as [AB OKK].
    pose proof (kcomp_dec_case done l lo hi C1 CD) as KC.
    destruct (Z_lt_le_dec (key (narrow t hi)) (key (narrow t lo))) as [LT|LE].
    { right. split; [intros [X _]; inversion X as [|? ? Q]; subst; cbn in Q; lia|]. cbn [add_items]. rewrite AB by auto. reflexivity. }
    destruct (existsb (duplicated t (narrow t lo) (narrow t hi)) (sw_cases s)) eqn:EX.
    + right. apply existsb_exists in EX. destruct EX as [c [Hc Dc]].
      pose proof (i_ok _ _ SV c Hc) as [? [? ?]]. apply duplicated_iff in Dc; auto. destruct Dc as [x [X Y]].
      destruct (i_all _ _ SV c x Hc Y) as [l' Hl]. split.
      * intros [_ [_ Z]]. inversion Z as [|? ? Q _]; subst. apply (proj2 KC Q l' x Hl X).
      * cbn [add_items]. rewrite AB by eauto. reflexivity.
    + assert (ND : forall l' x, rel done l' x -> ~ key (narrow t lo) <= x <= key (narrow t hi)).
      { intros l' x Hl X. apply (i_act _ _ SV) in Hl. destruct Hl as [c [Hc [_ Cc]]].
        assert (Q : existsb (duplicated t (narrow t lo) (narrow t hi)) (sw_cases s) = true).
        { apply existsb_exists. exists c. split; [exact Hc|]. pose proof (i_ok _ _ SV c Hc) as [? [? ?]]. apply duplicated_iff; eauto. }
        congruence. }
      destruct (OKK LE ND) as [cs' [E [I' B']]]. apply (SPLIT LE (proj1 KC ND) _ E). constructor.
      * cbn [sw_cases]. eapply inv_ext; [|exact I']. intros l' x. symmetry. apply rel_snoc_case.
      * cbn [sw_default]. intros l'. rewrite SD. rewrite in_app_iff. split; [auto|]. intros [H|[H|[]]]; [auto|discriminate].
      * cbn [sw_cases]. rewrite consts_app. apply B'.
        -- intros c Hc. destruct (SB c Hc) as [[y [H1 H2]] [y' [H3 H4]]].
           split; [exists y|exists y']; (split; [apply in_app_iff; auto|auto]).
        -- exists lo. split; [apply in_app_iff; right; left; reflexivity|reflexivity].
        -- exists hi. split; [apply in_app_iff; right; right; left; reflexivity|reflexivity].
  - destruct (sw_default s) as [d|] eqn:ED.
    + right. split; [|cbn [add_items add_item]; rewrite ED; reflexivity].
      intros [_ [_ Z]]. inversion Z as [|? ? Q _]; subst. assert (IN : In (IDefault d) done) by (apply SD; auto).
      rewrite Forall_forall in Q. apply (Q _ IN).
    + assert (ND : forall d, ~ In (IDefault d) done) by (intros d Hd; apply SD in Hd; discriminate).
      apply (SPLIT Logic.I) with (s1 := mksw (sw_cases s) (Some l)).
      * apply Forall_forall. intros d Hd. destruct d as [? ? ?|d]; [exact Logic.I|]. exfalso. apply (ND d Hd).
      * cbn [add_item]. rewrite ED. reflexivity.
      * constructor.
        -- cbn [sw_cases]. eapply inv_ext; [|exact SV]. intros l' x. symmetry. apply rel_snoc_def.
        -- cbn [sw_default]. intros l'. rewrite in_app_iff. split; [intros [= ->]; right; left; reflexivity|].
           intros [H|[H|[]]]; [exfalso; apply (ND _ H)|injection H as ->; reflexivity].
        -- cbn [sw_cases]. rewrite consts_app. cbn [consts flat_map]. rewrite app_nil_r. exact SB.
Qed.

Lemma sinv0 : sinv [] (mksw [] None).
Proof.
  constructor; cbn.
  - constructor; [intros c []| |intros c x []]. intros x l. split; [intros [c [[] _]]|intros [a [b [[] _]]]].
  - intros l. split; [discriminate|intros []].
  - intros c [].
Qed.

(** ** Back to the values of the promoted type *)
Definition small : bool := negb (ct_size t =? 8) && ct_uns t && (ct_bits t <? 32).
Definition kap (v : Z) : Z := if small then trunc 32 v else v.

Lemma key_narrow z : in_int64 z -> key (narrow t z) = kap (cconv t z).
Proof.
  intros R. unfold key, u64, narrow, kap, small, cconv. destruct size_cases as [[E ->]|[N [-> B]]].
  - rewrite E, Z.eqb_refl. destruct (ct_uns t); cbn [andb negb]; [reflexivity|]. rewrite sext_id by (cbn; unfold in_int64 in R; lia). reflexivity.
  - destruct (Z.eqb_spec (ct_size t) 8); [contradiction|]. cbn [negb]. rewrite andb_false_r. destruct (ct_uns t); cbn [andb].
    + rewrite andb_true_r. destruct (Z.eqb_spec (ct_bits t) 32) as [E|E], (Z.ltb_spec (ct_bits t) 32); try lia.
      unfold trunc. rewrite sext_mod by lia. reflexivity.
    + rewrite andb_false_r. reflexivity.
Qed.

Lemma small_cconv z : small = true -> - 2 ^ 31 <= cconv t z < 2 ^ 31.
Proof.
  unfold small, cconv. destruct (ct_size t =? 8); [discriminate|]. cbn [negb andb].
  destruct (ct_uns t); [|discriminate]. cbn [andb]. intros H. destruct (Z.eqb_spec (ct_bits t) 32) as [E|E].
  - apply Z.ltb_lt in H. lia.
  - cbn [andb]. apply (sext_range 32). lia.
Qed.

Lemma kap_small v : small = true -> - 2 ^ 31 <= v < 2 ^ 31 -> kap v = if v <? 0 then v + 2 ^ 32 else v.
Proof.
  intros SM R. unfold kap, trunc. rewrite SM. change (2 ^ 31) with 2147483648 in R. change (2 ^ 32) with 4294967296.
  destruct (Z.ltb_spec v 0).
  - rewrite <- (Z.mod_add v 1) by lia. apply Z.mod_small. lia.
  - apply Z.mod_small. lia.
Qed.

Lemma small_one l lo hi : small = true -> one_sign t (ICase (L := label) l lo hi) -> (0 <= cconv t lo <-> 0 <= cconv t hi).
Proof.
  unfold small. intros SM O. apply andb_true_iff in SM. destruct SM as [SM B]. apply andb_true_iff in SM. destruct SM as [_ U].
  apply O; [exact U|apply Z.ltb_lt; exact B].
Qed.

(** Order and membership are the same in both. *)
Lemma kap_ne l lo hi : one_sign t (ICase (L := label) l lo hi) ->
  (kap (cconv t lo) <= kap (cconv t hi) <-> cconv t lo <= cconv t hi).
Proof.
  intros O. destruct small eqn:SM; [|unfold kap; rewrite SM; tauto].
  pose proof (small_one l lo hi SM O). pose proof (small_cconv lo SM). pose proof (small_cconv hi SM).
  rewrite !kap_small by auto. destruct (Z.ltb_spec (cconv t lo) 0), (Z.ltb_spec (cconv t hi) 0); lia.
Qed.
Lemma kap_in l lo hi v : one_sign t (ICase (L := label) l lo hi) -> (small = true -> - 2 ^ 31 <= v < 2 ^ 31) ->
  (kap (cconv t lo) <= kap v <= kap (cconv t hi) <-> cconv t lo <= v <= cconv t hi).
Proof.
  intros O V. destruct small eqn:SM; [|unfold kap; rewrite SM; tauto].
  pose proof (small_one l lo hi SM O). pose proof (small_cconv lo SM). pose proof (small_cconv hi SM). specialize (V eq_refl).
  rewrite !kap_small by auto. destruct (Z.ltb_spec (cconv t lo) 0), (Z.ltb_spec (cconv t hi) 0), (Z.ltb_spec v 0); lia.
Qed.
Lemma kap_onto lo hi x : kap (cconv t lo) <= x <= kap (cconv t hi) ->
  exists v, x = kap v /\ (small = true -> - 2 ^ 31 <= v < 2 ^ 31).
Proof.
  intros H. destruct small eqn:SM.
  - exists (sext 32 x). split.
    + unfold kap in *. rewrite SM in *. unfold trunc in *. rewrite sext_mod by lia.
      pose proof (mod_bound (cconv t lo) 32 ltac:(lia)). pose proof (mod_bound (cconv t hi) 32 ltac:(lia)).
      symmetry. apply Z.mod_small. lia.
    + intros _. apply (sext_range 32). lia.
  - exists x. split; [unfold kap; rewrite SM; reflexivity|discriminate].
Qed.

Lemma kne_iff i : consts64 [i] -> one_sign t i -> (kne i <-> nonempty t i).
Proof.
  intros C O. destruct i as [l lo hi|l]; cbn; [|tauto]. rewrite !key_narrow by (apply C; cbn; auto). apply (kap_ne l); auto.
Qed.
Lemma kcomp_iff i j : consts64 [i] -> consts64 [j] -> one_sign t i -> one_sign t j -> (kcomp i j <-> compatible t i j).
Proof.
  intros Ci Cj Oi Oj. destruct i as [l a b|l], j as [l' c d|l']; cbn [kcomp compatible hits];
    [|split; [intros _ v [_ []]|auto]|split; [intros _ v [[] _]|auto]|tauto].
  rewrite (key_narrow a), (key_narrow b) by (apply Ci; cbn; auto). rewrite (key_narrow c), (key_narrow d) by (apply Cj; cbn; auto). split.
  - intros N v [X Y]. apply N. exists (kap v).
    assert (V : small = true -> - 2 ^ 31 <= v < 2 ^ 31).
    { intros SM. pose proof (small_cconv a SM). pose proof (small_cconv b SM). lia. }
    split; [apply (kap_in l)|apply (kap_in l')]; auto.
  - intros N [x [X Y]]. destruct (kap_onto a b x X) as [v [-> V]]. apply (N v). split; [apply (kap_in l) in X|apply (kap_in l') in Y]; auto.
Qed.

Lemma consts64_in is i : consts64 is -> In i is -> consts64 [i].
Proof.
  intros C H z Hz. apply C. apply in_flat_map. exists i. split; [exact H|]. cbn in Hz. rewrite app_nil_r in Hz. exact Hz.
Qed.

Lemma valid_iff is : consts64 is -> Forall (one_sign t) is ->
  (Forall kne is /\ ForallOrdPairs kcomp is <-> valid t is).
Proof.
  intros C O. unfold valid. induction is as [|i is IH]; [split; intros; split; constructor|].
  inversion O as [|? ? O1 O2]; subst.
  assert (C1 : consts64 [i]) by (apply (consts64_in (i :: is)); auto; left; reflexivity).
  assert (C2 : consts64 is) by (intros z Hz; apply C; cbn [consts flat_map]; apply in_app_iff; auto).
  specialize (IH C2 O2). pose proof (kne_iff i C1 O1) as KN.
  assert (KC : Forall (kcomp i) is <-> Forall (compatible t i) is).
  { rewrite !Forall_forall in *. split; intros H j Hj; specialize (H j Hj); (apply kcomp_iff in H || apply kcomp_iff); auto;
    apply (consts64_in is); auto. }
  split; intros [A B]; inversion A; subst; inversion B; subst.
  - destruct (proj1 IH) as [? ?]; [auto|]. split; constructor; tauto.
  - destruct (proj2 IH) as [? ?]; [auto|]. split; constructor; tauto.
Qed.

Theorem read_ok opt is : consts64 is -> Forall (one_sign t) is ->
  (valid t is /\ (exists s, read_switch opt t is = Ok s /\ sinv is s)) \/ (~ valid t is /\ read_switch opt t is = Abort).
Proof.
  intros C O. pose proof (valid_iff is C O) as V.
  destruct (add_items_ok opt is [] _ sinv0 ltac:(intros z []) C) as [[A [B [_ H]]]|[A H]].
  - left. split; [tauto|exact H].
  - right. split; [|exact H]. intros X. apply A. apply V in X. destruct X. split; [auto|]. split; [auto|].
    apply Forall_forall. intros. constructor.
Qed.
End Type_.
