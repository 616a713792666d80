(** Proofs about the symbol table model. *)
From Coq Require Import ZArith List Bool Lia Arith.
From Verif Require Import Base HashmapModel HashmapSpec.
Import ListNotations.
Local Open Scope Z_scope.

(** ** Lists *)
Lemma upd_length {A} (l : list A) i x : length (upd l i x) = length l.
Proof. revert i; induction l; destruct i; simpl; auto. Qed.

Lemma nth_upd_same {A} (l : list A) i x :
  (i < length l)%nat -> nth_error (upd l i x) i = Some x.
Proof. revert i; induction l; destruct i; simpl; intros; try lia; auto.
  apply IHl; lia. Qed.

Lemma nth_upd_other {A} (l : list A) i j x :
  i <> j -> nth_error (upd l i x) j = nth_error l j.
Proof. revert i j; induction l; destruct i, j; simpl; intros; try congruence; auto. Qed.

Lemma key_eqb_eq a b : key_eqb a b = true <-> a = b.
Proof.
  revert b; induction a; destruct b; simpl; split; intros H; try congruence.
  - apply andb_prop in H as [H1 H2]. apply Z.eqb_eq in H1. apply IHa in H2. congruence.
  - injection H as -> ->. rewrite Z.eqb_refl. simpl. apply IHa. auto.
Qed.

Lemma slot_match_full s k :
  slot_match s k = true <-> exists v, s = Full k v.
Proof.
  destruct s as [| |k' v']; simpl; split; try (intros [? ?]; congruence); try discriminate.
  - intros H%key_eqb_eq. subst. eauto.
  - intros [v E]. injection E as -> ->. apply key_eqb_eq; auto.
Qed.

(** ** Counting non-empty slots *)
Definition nonempty (s : slot) : bool := match s with Empty => false | _ => true end.
Definition cnt (b : list slot) : Z := Z.of_nat (length (filter nonempty b)).

Lemma cnt_cons s b : cnt (s :: b) = (if nonempty s then 1 else 0) + cnt b.
Proof. unfold cnt; simpl. destruct (nonempty s); simpl length; lia. Qed.

Lemma cnt_upd b j s s' :
  nth_error b j = Some s ->
  cnt (upd b j s') = cnt b - (if nonempty s then 1 else 0) + (if nonempty s' then 1 else 0).
Proof.
  revert j; induction b as [|a b IH]; destruct j; simpl; intros H; try discriminate.
  - injection H as ->. rewrite !cnt_cons. lia.
  - rewrite !cnt_cons, (IH _ H). lia.
Qed.

Lemma live_cons s b : count_live (s :: b) = (if is_live s then 1 else 0) + count_live b.
Proof. unfold count_live; simpl. destruct (is_live s); simpl length; lia. Qed.

Lemma live_le_cnt b : count_live b <= cnt b.
Proof. induction b; [unfold count_live, cnt; simpl; lia|]. rewrite live_cons, cnt_cons.
  destruct a; cbn [is_live nonempty]; lia. Qed.

Lemma live_nonneg b : 0 <= count_live b.
Proof. unfold count_live; lia. Qed.

Lemma cnt_le_len b : cnt b <= Z.of_nat (length b).
Proof. induction b; [unfold cnt; simpl; lia|]. rewrite cnt_cons. simpl length.
  destruct (nonempty a); lia. Qed.

Lemma cnt_repeat n : cnt (repeat Empty n) = 0.
Proof. unfold cnt. induction n; simpl; auto. Qed.

Lemma exists_empty b : cnt b < Z.of_nat (length b) -> exists j, nth_error b j = Some Empty.
Proof.
  induction b as [|a b IH]; [unfold cnt; simpl; lia|]. rewrite cnt_cons; simpl length.
  destruct a; cbn [nonempty]; intros.
  - exists O; auto.
  - destruct IH as [j Hj]; [lia|]. exists (S j); auto.
  - destruct IH as [j Hj]; [lia|]. exists (S j); auto.
Qed.

Section Hash.
Variable hash : key -> Z.

(** ** Probe positions *)
Definition good_cap (c : Z) : Prop := exists n, 4 <= n <= 30 /\ c = 2 ^ n.

Lemma good_cap_bounds c : good_cap c -> 16 <= c < two31.
Proof.
  intros (n & Hn & ->). unfold two31.
  assert (2 ^ 4 <= 2 ^ n) by (apply Z.pow_le_mono_r; lia).
  assert (2 ^ n <= 2 ^ 30) by (apply Z.pow_le_mono_r; lia).
  change (2 ^ 4) with 16 in *. change (2 ^ 30) with 1073741824 in *. lia.
Qed.

Lemma index_mod h i c : good_cap c -> index h i c = Z.to_nat ((h + i) mod c).
Proof.
  intros (n & Hn & ->). unfold index. f_equal.
  replace (2 ^ n - 1) with (Z.ones n) by (rewrite Z.ones_equiv; lia).
  rewrite Z.land_ones by lia.
  change two64 with (2 ^ 64).
  replace (2 ^ 64) with (2 ^ n * 2 ^ (64 - n)) by (rewrite <- Z.pow_add_r by lia; f_equal; lia).
  rewrite Z.rem_mul_r by (try apply Z.pow_nonzero; try apply Z.pow_pos_nonneg; lia).
  rewrite (Z.mul_comm (2 ^ n)), Z.mod_add by (apply Z.pow_nonzero; lia).
  apply Z.mod_mod. apply Z.pow_nonzero; lia.
Qed.

Lemma index_lt h i (b : list slot) : good_cap (Z.of_nat (length b)) ->
  (index h i (Z.of_nat (length b)) < length b)%nat.
Proof.
  intros H. pose proof (good_cap_bounds _ H). rewrite index_mod by auto.
  assert (0 <= (h + i) mod Z.of_nat (length b) < Z.of_nat (length b))
    by (apply Z.mod_pos_bound; lia). lia.
Qed.

(** every slot is at a unique distance on the probe path of every key *)
Lemma index_surj h (b : list slot) j : good_cap (Z.of_nat (length b)) -> (j < length b)%nat ->
  exists i, 0 <= i < Z.of_nat (length b) /\ index h i (Z.of_nat (length b)) = j.
Proof.
  intros H Hj. pose proof (good_cap_bounds _ H).
  exists ((Z.of_nat j - h) mod Z.of_nat (length b)). split; [apply Z.mod_pos_bound; lia|].
  rewrite index_mod by auto.
  rewrite Z.add_mod_idemp_r by lia.
  replace (h + (Z.of_nat j - h)) with (Z.of_nat j) by lia.
  rewrite Z.mod_small by lia. lia.
Qed.

Lemma index_inj h (b : list slot) i i' : good_cap (Z.of_nat (length b)) ->
  0 <= i < Z.of_nat (length b) -> 0 <= i' < Z.of_nat (length b) ->
  index h i (Z.of_nat (length b)) = index h i' (Z.of_nat (length b)) -> i = i'.
Proof.
  intros H Hi Hi' E. pose proof (good_cap_bounds _ H).
  set (c := Z.of_nat (length b)) in *.
  rewrite !index_mod in E by auto.
  pose proof (Z.mod_pos_bound (h + i) c ltac:(lia)).
  pose proof (Z.mod_pos_bound (h + i') c ltac:(lia)).
  assert (E' : (h + i) mod c = (h + i') mod c) by lia.
  pose proof (Z.div_mod (h + i) c ltac:(lia)). pose proof (Z.div_mod (h + i') c ltac:(lia)).
  assert ((h + i) / c = (h + i') / c) by nia. nia.
Qed.

(** ** Table invariant *)
Definition at_ (b : list slot) (k : key) (i : Z) : option slot :=
  nth_error b (index (hash k) i (Z.of_nat (length b))).

Record inv (b : list slot) (u : Z) : Prop := {
  inv_cap : good_cap (Z.of_nat (length b));
  inv_used : u = cnt b;
  inv_load : u < Z.of_nat (length b);
  inv_uniq : forall j j' k v v', nth_error b j = Some (Full k v) ->
     nth_error b j' = Some (Full k v') -> j = j';
  inv_reach : forall k v i, 0 <= i < Z.of_nat (length b) -> at_ b k i = Some (Full k v) ->
     forall i', 0 <= i' < i -> at_ b k i' <> Some Empty
}.

Definition holds (b : list slot) (k : key) (v : Z) : Prop :=
  exists j, nth_error b j = Some (Full k v).

(** ** The probe loop *)
Lemma probe_spec b k fuel i :
  good_cap (Z.of_nat (length b)) ->
  0 <= i -> Z.of_nat fuel = Z.of_nat (length b) - i ->
  match probe hash b k fuel i with
  | Found j => exists v i', i <= i' < Z.of_nat (length b) /\
                j = index (hash k) i' (Z.of_nat (length b)) /\
                nth_error b j = Some (Full k v) /\
                (forall d, i <= d < i' -> at_ b k d <> Some Empty)
  | Vacant j => exists i', i <= i' < Z.of_nat (length b) /\
                j = index (hash k) i' (Z.of_nat (length b)) /\
                nth_error b j = Some Empty /\
                (forall d, i <= d < i' -> at_ b k d <> Some Empty /\
                                         forall v, at_ b k d <> Some (Full k v))
  | Exhausted => forall d, i <= d < Z.of_nat (length b) -> at_ b k d <> Some Empty
  end.
Proof.
  revert i. induction fuel as [|f IH]; intros i Hc Hi Hf; simpl.
  - intros d Hd. lia.
  - pose proof (index_lt (hash k) i b Hc) as Hlt.
    destruct (nth_error b (index (hash k) i (Z.of_nat (length b)))) as [s|] eqn:E;
      [| apply nth_error_None in E; lia].
    destruct (slot_match s k) eqn:M.
    + apply slot_match_full in M as [v ->]. exists v, i.
      split; [lia|]. split; [auto|]. split; [auto|]. intros; lia.
    + destruct s as [| |k' v'].
      * exists i. split; [lia|]. split; [auto|]. split; [auto|]. intros; lia.
      * specialize (IH (i + 1) Hc ltac:(lia) ltac:(lia)).
        destruct (probe hash b k f (i + 1)).
        -- destruct IH as (v & i' & A & B & C & D). exists v, i'. repeat split; auto; try lia.
           intros d Hd. destruct (Z.eq_dec d i); [subst; unfold at_; congruence|apply D; lia].
        -- destruct IH as (i' & A & B & C & D). exists i'. repeat split; auto; try lia.
           ++ destruct (Z.eq_dec d i); [subst; unfold at_; congruence|apply D; lia].
           ++ destruct (Z.eq_dec d i); [subst; unfold at_; congruence|apply D; lia].
        -- intros d Hd. destruct (Z.eq_dec d i); [subst; unfold at_; congruence|apply IH; lia].
      * assert (Hk : k' <> k) by (intros ->; simpl in M;
            rewrite (proj2 (key_eqb_eq k k) eq_refl) in M; discriminate).
        specialize (IH (i + 1) Hc ltac:(lia) ltac:(lia)).
        destruct (probe hash b k f (i + 1)).
        -- destruct IH as (v & i' & A & B & C & D). exists v, i'. repeat split; auto; try lia.
           intros d Hd. destruct (Z.eq_dec d i); [subst; unfold at_; congruence|apply D; lia].
        -- destruct IH as (i' & A & B & C & D). exists i'. repeat split; auto; try lia.
           ++ destruct (Z.eq_dec d i); [subst; unfold at_; congruence|apply D; lia].
           ++ destruct (Z.eq_dec d i); [subst; unfold at_; congruence|apply D; lia].
        -- intros d Hd. destruct (Z.eq_dec d i); [subst; unfold at_; congruence|apply IH; lia].
Qed.

(** With the invariant: never exhausted; vacant exactly when the key is absent. *)
Lemma probe_inv b u k : inv b u ->
  match probe hash b k (length b) 0 with
  | Found j => exists v, nth_error b j = Some (Full k v)
  | Vacant j => (exists i', 0 <= i' < Z.of_nat (length b) /\
                   j = index (hash k) i' (Z.of_nat (length b)) /\
                   nth_error b j = Some Empty /\
                   forall d, 0 <= d < i' -> at_ b k d <> Some Empty) /\
                forall v, ~ holds b k v
  | Exhausted => False
  end.
Proof.
  intros I. pose proof (probe_spec b k (length b) 0 (inv_cap _ _ I) ltac:(lia) ltac:(lia)) as P.
  destruct (probe hash b k (length b) 0).
  - destruct P as (v & i' & _ & _ & C & _). eauto.
  - destruct P as (i' & A & B & C & D). split.
    + exists i'. repeat split; auto; try lia. intros d Hd. apply D; lia.
    + intros v [j' Hj'].
      assert (Hlt : (j' < length b)%nat) by (apply nth_error_Some; congruence).
      destruct (index_surj (hash k) b j' (inv_cap _ _ I) Hlt) as (d & Hd & E).
      destruct (Z_lt_ge_dec d i').
      * destruct (D d ltac:(lia)) as [_ D2]. apply (D2 v). unfold at_. rewrite E. auto.
      * destruct (Z.eq_dec d i').
        -- subst. congruence.
        -- refine (inv_reach _ _ I k v d Hd _ i' ltac:(lia) _).
           ++ unfold at_. rewrite E. auto.
           ++ unfold at_. rewrite <- B. auto.
  - destruct (exists_empty b) as [j Hj].
    { rewrite <- (inv_used _ _ I). apply I. }
    assert (Hlt : (j < length b)%nat) by (apply nth_error_Some; congruence).
    destruct (index_surj (hash k) b j (inv_cap _ _ I) Hlt) as (d & Hd & E).
    apply (P d); [lia|]. unfold at_. rewrite E. auto.
Qed.

(** ** Updates keep the invariant *)
Lemma at_upd b k i j s : at_ (upd b j s) k i =
  if Nat.eq_dec (index (hash k) i (Z.of_nat (length b))) j
  then if lt_dec j (length b) then Some s else None
  else at_ b k i.
Proof.
  unfold at_. rewrite upd_length.
  destruct (Nat.eq_dec _ j) as [->|N].
  - destruct (lt_dec j (length b)).
    + apply nth_upd_same; auto.
    + apply nth_error_None. rewrite upd_length. lia.
  - apply nth_upd_other; auto.
Qed.

Lemma nth_upd_inv {A} (b : list A) j x j' y :
  nth_error (upd b j x) j' = Some y ->
  (j' = j /\ y = x) \/ (j' <> j /\ nth_error b j' = Some y).
Proof.
  intros H. destruct (Nat.eq_dec j' j) as [->|N].
  - left. split; auto.
    assert (j < length b)%nat by (rewrite <- (upd_length b j x); apply nth_error_Some; congruence).
    rewrite nth_upd_same in H by auto. congruence.
  - right. split; auto. rewrite nth_upd_other in H by auto. auto.
Qed.

Lemma inv_overwrite b u j k v v' : inv b u -> nth_error b j = Some (Full k v) ->
  inv (upd b j (Full k v')) u.
Proof.
  intros I E. assert (Hj : (j < length b)%nat) by (apply nth_error_Some; congruence).
  split; rewrite ?upd_length.
  - apply I.
  - rewrite (cnt_upd _ _ _ _ E). simpl. rewrite (inv_used _ _ I). lia.
  - apply I.
  - intros a a' k0 w w' H H'. apply nth_upd_inv in H, H'.
    destruct H as [[-> X]|[N H]], H' as [[-> X']|[N' H']]; auto.
    + injection X as -> ->. exfalso. apply N'. eapply (inv_uniq _ _ I); eauto.
    + injection X' as -> ->. exfalso. apply N. eapply (inv_uniq _ _ I); eauto.
    + eapply (inv_uniq _ _ I); eauto.
  - intros k0 w i Hi H i' Hi'. rewrite at_upd in *.
    assert (R : exists w', at_ b k0 i = Some (Full k0 w')).
    { destruct (Nat.eq_dec _ j) as [Q|Q]; [|eauto].
      destruct (lt_dec j (length b)); [|congruence]. injection H as -> ->.
      exists v. unfold at_. rewrite Q. auto. }
    destruct R as [w' R].
    destruct (Nat.eq_dec (index (hash k0) i' _) j) as [Q|Q].
    + destruct (lt_dec j (length b)); congruence.
    + exact (inv_reach _ _ I k0 w' i Hi R i' Hi').
Qed.

Lemma inv_delete b u j k v : inv b u -> nth_error b j = Some (Full k v) ->
  inv (upd b j Tomb) u.
Proof.
  intros I E. assert (Hj : (j < length b)%nat) by (apply nth_error_Some; congruence).
  split; rewrite ?upd_length.
  - apply I.
  - rewrite (cnt_upd _ _ _ _ E). simpl. rewrite (inv_used _ _ I). lia.
  - apply I.
  - intros a a' k0 w w' H H'. apply nth_upd_inv in H, H'.
    destruct H as [[-> X]|[N H]], H' as [[-> X']|[N' H']]; try discriminate.
    eapply (inv_uniq _ _ I); eauto.
  - intros k0 w i Hi H i' Hi'. rewrite at_upd in *.
    destruct (Nat.eq_dec (index (hash k0) i _) j) as [Q|Q].
    { destruct (lt_dec j (length b)); discriminate. }
    destruct (Nat.eq_dec (index (hash k0) i' _) j) as [Q'|Q'].
    + destruct (lt_dec j (length b)); discriminate.
    + exact (inv_reach _ _ I k0 w i Hi H i' Hi').
Qed.

Lemma inv_insert b u k v i0 :
  inv b u -> u + 1 < Z.of_nat (length b) ->
  0 <= i0 < Z.of_nat (length b) ->
  nth_error b (index (hash k) i0 (Z.of_nat (length b))) = Some Empty ->
  (forall d, 0 <= d < i0 -> at_ b k d <> Some Empty) ->
  (forall v, ~ holds b k v) ->
  inv (upd b (index (hash k) i0 (Z.of_nat (length b))) (Full k v)) (u + 1).
Proof.
  intros I Hu Hi0 E Hpath Habs.
  set (j := index (hash k) i0 (Z.of_nat (length b))) in *.
  assert (Hj : (j < length b)%nat) by (apply nth_error_Some; congruence).
  split; rewrite ?upd_length.
  - apply I.
  - rewrite (cnt_upd _ _ _ _ E). simpl. rewrite (inv_used _ _ I). lia.
  - lia.
  - intros a a' k0 w w' H H'. apply nth_upd_inv in H, H'.
    destruct H as [[-> X]|[N H]], H' as [[-> X']|[N' H']]; auto.
    + injection X as -> ->. exfalso. apply (Habs w'). exists a'; auto.
    + injection X' as -> ->. exfalso. apply (Habs w). exists a; auto.
    + eapply (inv_uniq _ _ I); eauto.
  - intros k0 w i Hi H i' Hi'. rewrite at_upd in *.
    destruct (Nat.eq_dec (index (hash k0) i' _) j) as [Q'|Q'].
    { destruct (lt_dec j (length b)); congruence. }
    destruct (Nat.eq_dec (index (hash k0) i _) j) as [Q|Q].
    + destruct (lt_dec j (length b)); [|congruence]. injection H as -> ->.
      assert (i = i0) by (eapply index_inj; eauto; apply I). subst i.
      apply Hpath; auto.
    + exact (inv_reach _ _ I k0 w i Hi H i' Hi').
Qed.

(** ** Abstraction *)
Definition R (b : list slot) (f : key -> option Z) : Prop :=
  forall k v, holds b k v <-> f k = Some v.

Definition fput (f : key -> option Z) k v : key -> option Z :=
  fun k' => if keq k k' then Some v else f k'.
Definition fdel (f : key -> option Z) k : key -> option Z :=
  fun k' => if keq k k' then None else f k'.

Lemma R_put b u f k v j old :
  inv b u -> R b f -> nth_error b j = Some old ->
  (old = Empty /\ (forall v, ~ holds b k v) \/ exists v0, old = Full k v0) ->
  R (upd b j (Full k v)) (fput f k v).
Proof.
  intros I HR E C k' v'.
  assert (Hj : (j < length b)%nat) by (apply nth_error_Some; congruence).
  unfold fput. split.
  - intros [a H]. apply nth_upd_inv in H as [[-> X]|[N H]].
    + injection X as -> ->. destruct (keq k k); congruence.
    + destruct (keq k k') as [<-|]; [|apply HR; exists a; auto].
      exfalso. destruct C as [[-> C]|[v0 ->]].
      * apply (C v'). exists a; auto.
      * apply N. eapply (inv_uniq _ _ I); eauto.
  - destruct (keq k k') as [<-|N].
    + intros X. injection X as ->. exists j. apply nth_upd_same; auto.
    + intros X. apply HR in X as [a X]. exists a. rewrite nth_upd_other; auto.
      intros ->. rewrite E in X. injection X as ->.
      destruct C as [[C _]|[v0 C]]; [discriminate|]. injection C; congruence.
Qed.

Lemma R_delete b u f k v j : inv b u -> R b f -> nth_error b j = Some (Full k v) ->
  R (upd b j Tomb) (fdel f k).
Proof.
  intros I HR E k' v'.
  assert (Hj : (j < length b)%nat) by (apply nth_error_Some; congruence).
  unfold fdel. split.
  - intros [a H]. apply nth_upd_inv in H as [[-> X]|[N H]]; [discriminate|].
    destruct (keq k k') as [<-|]; [|apply HR; exists a; auto].
    exfalso. apply N. eapply (inv_uniq _ _ I); eauto.
  - destruct (keq k k') as [<-|N]; [discriminate|].
    intros X. apply HR in X as [a X]. exists a. rewrite nth_upd_other; auto.
    intros ->. rewrite E in X. injection X. intros; subst; congruence.
Qed.

Lemma holds_fun b u k v v' : inv b u -> holds b k v -> holds b k v' -> v = v'.
Proof.
  intros I [j H] [j' H']. assert (j = j') by (eapply (inv_uniq _ _ I); eauto). subst. congruence.
Qed.

(** ** insert_probe *)
Lemma insert_probe_ok b u f k v :
  inv b u -> u + 1 < Z.of_nat (length b) -> R b f ->
  exists b' u', insert_probe hash b u k v = Ok (mkmap (Some b') u') /\
    inv b' u' /\ R b' (fput f k v) /\ length b' = length b /\
    u' = (match f k with None => u + 1 | Some _ => u end).
Proof.
  intros I Hu HR. unfold insert_probe. pose proof (probe_inv b u k I) as P.
  pose proof (good_cap_bounds _ (inv_cap _ _ I)) as Hcap. unfold two31 in Hcap.
  destruct (probe hash b k (length b) 0) as [j|j|].
  - destruct P as [v0 E]. exists (upd b j (Full k v)), u.
    split; [auto|]. split; [eapply inv_overwrite; eauto|].
    split; [eapply R_put; eauto|]. split; [apply upd_length|].
    assert (X : f k = Some v0) by (apply HR; exists j; auto). rewrite X. auto.
  - destruct P as ((i' & A & B & C & D) & Habs).
    exists (upd b j (Full k v)), (u + 1).
    assert (X : int_of (u + 1) = Ok (u + 1)).
    { unfold int_of, INT_MIN, INT_MAX.
      assert (0 <= u) by (rewrite (inv_used _ _ I); unfold cnt; lia).
      destruct (Z.leb_spec (-2147483648) (u + 1)); [|lia].
      destruct (Z.leb_spec (u + 1) 2147483647); [|lia]. auto. }
    rewrite X. simpl. split; [auto|]. split; [|split; [|split; [apply upd_length|]]].
    + subst j. apply inv_insert; auto.
    + eapply R_put; eauto.
    + destruct (f k) eqn:Ef; auto. exfalso. eapply Habs. apply HR; eauto.
  - contradiction.
Qed.

(** ** Fresh table *)
Lemma nth_repeat_empty n j (s : slot) : nth_error (repeat Empty n) j = Some s -> s = Empty.
Proof. intros H. apply nth_error_In in H. apply repeat_spec in H. auto. Qed.

Lemma inv_fresh n : good_cap (Z.of_nat n) -> inv (repeat Empty n) 0.
Proof.
  intros H. split; rewrite ?repeat_length.
  - auto.
  - rewrite cnt_repeat; auto.
  - apply good_cap_bounds in H. lia.
  - intros j j' k v v' E. apply nth_repeat_empty in E. discriminate.
  - intros k v i _ E. apply nth_repeat_empty in E. discriminate.
Qed.

Lemma R_fresh n : R (repeat Empty n) (fun _ => None).
Proof. intros k v. split; [|discriminate]. intros [j E]. apply nth_repeat_empty in E. discriminate. Qed.

(** ** Growing *)
Lemma grow_ok fuel nkeys n :
  0 <= nkeys -> nkeys * 100 <= INT_MAX -> 4 <= n <= 30 -> 30 - n < Z.of_nat fuel ->
  exists c, grow fuel nkeys (2 ^ n) = Ok c /\ good_cap c /\ nkeys * 100 < 50 * c /\
            2 ^ n <= c.
Proof.
  revert n. induction fuel as [|f IH]; intros n Hk Hm Hn Hf; [lia|].
  simpl. unfold int_of at 1. unfold INT_MIN, INT_MAX in *.
  assert (0 < 2 ^ n) by (apply Z.pow_pos_nonneg; lia).
  destruct (Z.leb_spec (-2147483648) (nkeys * 100)); [|lia].
  destruct (Z.leb_spec (nkeys * 100) 2147483647); [|lia]. simpl.
  destruct (Z.geb_spec (nkeys * 100 / 2 ^ n) 50) as [G|G].
  - assert (50 * 2 ^ n <= nkeys * 100).
    { pose proof (Z.mul_div_le (nkeys * 100) (2 ^ n) ltac:(lia)). nia. }
    assert (n < 26).
    { destruct (Z_lt_ge_dec n 26); auto.
      assert (2 ^ 26 <= 2 ^ n) by (apply Z.pow_le_mono_r; lia).
      change (2 ^ 26) with 67108864 in *. lia. }
    assert (E : 2 ^ n * 2 = 2 ^ (n + 1)) by (rewrite Z.pow_add_r by lia; lia).
    unfold int_of, INT_MIN, INT_MAX.
    destruct (Z.leb_spec (-2147483648) (2 ^ n * 2)); [|lia].
    destruct (Z.leb_spec (2 ^ n * 2) 2147483647); [|lia]. simpl.
    rewrite E. destruct (IH (n + 1)) as (c & A & B & C & D); try lia.
    exists c. split; [auto|]. split; [auto|]. split; [auto|]. lia.
  - exists (2 ^ n). split; [auto|]. split; [exists n; auto|]. split; [|lia].
    destruct (Z_lt_ge_dec (nkeys * 100) (50 * 2 ^ n)) as [?|Q]; auto.
    assert (50 <= nkeys * 100 / 2 ^ n) by (apply Z.div_le_lower_bound; lia). lia.
Qed.

Lemma put2_S d m k v : put2 hash (S d) m k v =
  match buckets m with
  | None => insert_probe hash (repeat Empty 16) (used m) k v
  | Some b =>
      do p <- int_of (used m * 100);
      if p / Z.of_nat (length b) >=? 70 then
        do m' <- rehash (put2 hash d) b;
        match buckets m' with
        | None => Abort
        | Some b' => insert_probe hash b' (used m') k v
        end
      else insert_probe hash b (used m) k v
  end.
Proof. reflexivity. Qed.

(** ** put of the copy during rehash: load stays low, no nested rehash *)
Lemma put2_noresize d b u f k v :
  inv b u -> R b f -> u * 100 <= INT_MAX -> u * 100 < 70 * Z.of_nat (length b) ->
  exists b' u', put2 hash (S d) (mkmap (Some b) u) k v = Ok (mkmap (Some b') u') /\
    inv b' u' /\ R b' (fput f k v) /\ length b' = length b /\
    u' = (match f k with None => u + 1 | Some _ => u end).
Proof.
  intros I HR Hm Hl. rewrite put2_S. cbn [buckets used].
  pose proof (good_cap_bounds _ (inv_cap _ _ I)) as Hc.
  assert (Hu : 0 <= u) by (rewrite (inv_used _ _ I); unfold cnt; lia).
  unfold int_of. unfold INT_MIN, INT_MAX in *.
  destruct (Z.leb_spec (-2147483648) (u * 100)); [|lia].
  destruct (Z.leb_spec (u * 100) 2147483647); [|lia]. cbn [bind andb fst snd].
  assert (Hq : u * 100 / Z.of_nat (length b) < 70) by (apply Z.div_lt_upper_bound; lia).
  destruct (Z.geb_spec (u * 100 / Z.of_nat (length b)) 70); [lia|].
  apply insert_probe_ok; auto. lia.
Qed.

(** keys of the part of the old table still to be copied are absent from the copy *)
Lemma reinsert_ok d r : forall done b u f,
  inv b u -> R b f ->
  (* [f] holds exactly the live entries of [done] *)
  (forall k v, f k = Some v <-> exists j, nth_error done j = Some (Full k v)) ->
  (forall j j' k v v', nth_error (done ++ r) j = Some (Full k v) ->
     nth_error (done ++ r) j' = Some (Full k v') -> j = j') ->
  (u + count_live r) * 100 <= INT_MAX ->
  (u + count_live r) * 100 < 50 * Z.of_nat (length b) ->
  exists b' u' f', reinsert (put2 hash (S d)) r (mkmap (Some b) u) = Ok (mkmap (Some b') u') /\
    inv b' u' /\ R b' f' /\ length b' = length b /\ u' = u + count_live r /\
    (forall k v, f' k = Some v <-> exists j, nth_error (done ++ r) j = Some (Full k v)).
Proof.
  induction r as [|s r IH]; intros done b u f I HR Hf Hu Hm Hl.
  - exists b, u, f. simpl. split; [auto|]. split; [auto|]. split; [auto|].
    split; [auto|]. split; [unfold count_live; simpl; lia|]. rewrite app_nil_r. auto.
  - rewrite live_cons in *.
    replace (done ++ s :: r) with ((done ++ [s]) ++ r) in * by (rewrite <- app_assoc; auto).
    pose proof (live_nonneg r).
    assert (Hskip : is_live s = false -> reinsert (put2 hash (S d)) (s :: r) (mkmap (Some b) u)
                      = reinsert (put2 hash (S d)) r (mkmap (Some b) u)).
    { destruct s; simpl; congruence. }
    destruct (is_live s) eqn:Ls.
    + destruct s as [| |k v]; try discriminate. cbn [reinsert].
      destruct (put2_noresize d b u f k v) as (b1 & u1 & E1 & I1 & R1 & L1 & U1); auto.
      { cbv iota in Hm. lia. } { cbv iota in Hl. lia. }
      rewrite E1. cbn [bind andb fst snd].
      assert (Fk : f k = None).
      { destruct (f k) eqn:Q; auto. exfalso. apply Hf in Q as [j Q].
        assert (j < length done)%nat by (apply nth_error_Some; congruence).
        assert (X : j = length done).
        { apply (Hu j (length done) k z v).
          - rewrite <- app_assoc, nth_error_app1; auto.
          - rewrite <- app_assoc, nth_error_app2, Nat.sub_diag by lia. auto. }
        lia. }
      rewrite Fk in U1.
      destruct (IH (done ++ [Full k v]) b1 u1 (fput f k v)) as (b2 & u2 & f2 & A); auto.
      { intros k' v'. unfold fput. destruct (keq k k') as [<-|N].
        - split.
          + intros X. injection X as <-. exists (length done).
            rewrite nth_error_app2, Nat.sub_diag by lia. auto.
          + intros [j Hj]. f_equal.
            assert (X : j = length done).
            { apply (Hu j (length done) k v' v).
              - rewrite nth_error_app1; auto. apply nth_error_Some. congruence.
              - rewrite nth_error_app1 by (rewrite app_length; simpl; lia).
                rewrite nth_error_app2, Nat.sub_diag by lia. auto. }
            subst j. rewrite nth_error_app2, Nat.sub_diag in Hj by lia. simpl in Hj. congruence.
        - rewrite Hf. split; intros [j Hj].
          + exists j. rewrite nth_error_app1; auto. apply nth_error_Some. congruence.
          + exists j. destruct (lt_dec j (length done)).
            * rewrite nth_error_app1 in Hj; auto.
            * rewrite nth_error_app2 in Hj by lia.
              destruct (j - length done)%nat as [|[|]]; simpl in Hj; congruence. }
      { cbv iota in Hm. lia. } { rewrite L1. cbv iota in Hl. lia. }
      destruct A as (A1 & A2 & A3 & A4 & A5 & A6).
      exists b2, u2, f2. split; [auto|]. split; [auto|]. split; [auto|].
      split; [lia|]. split; [cbv iota; lia|]. auto.
    + rewrite Hskip by auto.
      destruct (IH (done ++ [s]) b u f) as (b2 & u2 & f2 & A); auto.
      { intros k' v'. rewrite Hf. split; intros [j Hj].
        - exists j. rewrite nth_error_app1; auto. apply nth_error_Some. congruence.
        - exists j. destruct (lt_dec j (length done)).
          + rewrite nth_error_app1 in Hj; auto.
          + rewrite nth_error_app2 in Hj by lia.
            destruct (j - length done)%nat as [|[|]]; simpl in Hj; try congruence.
            injection Hj as ->. discriminate. }
      destruct A as (A1 & A2 & A3 & A4 & A5 & A6).
      exists b2, u2, f2. split; [auto|]. split; [auto|]. split; [auto|].
      split; [lia|]. split; [lia|]. auto.
Qed.

Lemma rehash_ok d b u f :
  inv b u -> R b f -> u * 100 <= INT_MAX ->
  exists b' u', rehash (put2 hash (S d)) b = Ok (mkmap (Some b') u') /\
    inv b' u' /\ R b' f /\ u' <= u /\ u' * 100 < 50 * Z.of_nat (length b') /\
    u' = count_live b.
Proof.
  intros I HR Hm. unfold rehash.
  pose proof (live_le_cnt b) as Hl. pose proof (live_nonneg b) as Hn.
  rewrite <- (inv_used _ _ I) in Hl.
  destruct (inv_cap _ _ I) as (n & Hn' & En). rewrite En.
  destruct (grow_ok 40 (count_live b) n) as (c & G1 & G2 & G3 & G4); auto; try lia.
  rewrite G1. cbn [bind andb fst snd].
  pose proof (good_cap_bounds _ G2) as Hc.
  assert (Hlen : Z.of_nat (length (repeat Empty (Z.to_nat c))) = c)
    by (rewrite repeat_length; lia).
  destruct (reinsert_ok d b [] (repeat Empty (Z.to_nat c)) 0 (fun _ => None))
    as (b2 & u2 & f2 & A1 & A2 & A3 & A4 & A5 & A6).
  - apply inv_fresh. rewrite Z2Nat.id by lia. auto.
  - apply R_fresh.
  - intros k v. split; [discriminate|]. intros [j E]. destruct j; discriminate.
  - intros j j' k v v'. apply (inv_uniq _ _ I).
  - unfold INT_MAX in *; lia.
  - rewrite Hlen. lia.
  - rewrite A1. cbn [bind used]. rewrite Z.add_0_l in A5. subst u2. rewrite Z.eqb_refl.
    exists b2, (count_live b). split; [auto|].
    split; [auto|]. split; [|split; [lia|split; [|lia]]].
    + intros k v. rewrite (A3 k v). rewrite A6. simpl. apply HR.
    + rewrite A4, Hlen. lia.
Qed.

(** ** The whole table *)
Definition rep (m : hmap) (f : key -> option Z) : Prop :=
  match buckets m with
  | None => used m = 0 /\ forall k, f k = None
  | Some b => inv b (used m) /\ R b f
  end.

Lemma rep_empty : rep empty_map (fun _ => None).
Proof. split; reflexivity. Qed.

Lemma good16 : good_cap 16.
Proof. exists 4. split; [lia|reflexivity]. Qed.

Lemma put_ok m f k v :
  rep m f -> used m * 100 <= INT_MAX ->
  exists m', hashmap_put hash m k v = Ok m' /\ rep m' (fput f k v) /\ used m' <= used m + 1.
Proof.
  unfold rep, hashmap_put. destruct m as [[b|] u]; cbn [buckets used].
  - intros [I HR] Hm.
    rewrite put2_S. cbn [buckets used].
    pose proof (good_cap_bounds _ (inv_cap _ _ I)) as Hc.
    assert (Hu : 0 <= u) by (rewrite (inv_used _ _ I); unfold cnt; lia).
    unfold int_of at 1. unfold INT_MIN. unfold INT_MAX at 1.
    destruct (Z.leb_spec (-2147483648) (u * 100)); [|lia].
    destruct (Z.leb_spec (u * 100) 2147483647); [|unfold INT_MAX in *; lia]. cbn [bind andb fst snd].
    destruct (Z.geb_spec (u * 100 / Z.of_nat (length b)) 70) as [G|G].
    + destruct (rehash_ok 0 b u f I HR Hm) as (b1 & u1 & E1 & I1 & R1 & L1 & H1 & _).
      rewrite E1. cbn [bind buckets used].
      pose proof (good_cap_bounds _ (inv_cap _ _ I1)).
      destruct (insert_probe_ok b1 u1 f k v) as (b2 & u2 & E2 & I2 & R2 & L2 & U2); auto; try lia.
      exists (mkmap (Some b2) u2). rewrite E2. split; [auto|]. split; [split; auto|].
      cbn [used]. rewrite U2. destruct (f k); lia.
    + assert (u * 100 < 70 * Z.of_nat (length b)).
      { destruct (Z_lt_ge_dec (u * 100) (70 * Z.of_nat (length b))) as [?|Q]; auto.
        assert (70 <= u * 100 / Z.of_nat (length b)) by (apply Z.div_le_lower_bound; lia). lia. }
      destruct (insert_probe_ok b u f k v) as (b2 & u2 & E2 & I2 & R2 & L2 & U2); auto; try lia.
      exists (mkmap (Some b2) u2). rewrite E2. split; [auto|]. split; [split; auto|].
      cbn [used]. rewrite U2. destruct (f k); lia.
  - intros [-> Hf] _. rewrite put2_S. cbn [buckets used].
    destruct (insert_probe_ok (repeat Empty 16) 0 f k v) as (b2 & u2 & E2 & I2 & R2 & L2 & U2).
    + apply inv_fresh. apply good16.
    + rewrite repeat_length. lia.
    + intros k' v'. rewrite Hf. apply (R_fresh 16 k' v').
    + exists (mkmap (Some b2) u2). rewrite E2. split; [auto|]. split; [split; auto|].
      cbn [used]. rewrite Hf in U2. lia.
Qed.

Lemma get_entry_ok m f k : rep m f ->
  match buckets m, f k with
  | Some b, Some v => exists j, get_entry hash m k = Ok (Some j) /\ nth_error b j = Some (Full k v)
  | _, _ => get_entry hash m k = Ok None
  end.
Proof.
  unfold rep, get_entry. destruct m as [[b|] u]; cbn [buckets used]; [|intros _; reflexivity].
  intros [I HR]. pose proof (probe_inv b u k I) as P.
  destruct (probe hash b k (length b) 0) as [j|j|].
  - destruct P as [v E]. assert (X : f k = Some v) by (apply HR; exists j; auto).
    rewrite X. eauto.
  - destruct P as [_ Habs]. destruct (f k) eqn:E; auto.
    exfalso. apply (Habs z). apply HR. auto.
  - contradiction.
Qed.

Lemma get_ok m f k : rep m f ->
  hashmap_get hash m k = Ok (match f k with Some v => v | None => 0 end).
Proof.
  intros H. pose proof (get_entry_ok m f k H) as G. unfold hashmap_get.
  destruct (buckets m) as [b|] eqn:B.
  - destruct (f k).
    + destruct G as (j & -> & E). simpl. rewrite E. auto.
    + rewrite G. reflexivity.
  - rewrite G. simpl. unfold rep in H. rewrite B in H. destruct H as [_ H]. rewrite H. auto.
Qed.

Lemma delete_ok m f k : rep m f ->
  exists m', hashmap_delete hash m k = Ok m' /\ rep m' (fdel f k) /\ used m' = used m.
Proof.
  intros H. pose proof (get_entry_ok m f k H) as G. unfold hashmap_delete.
  destruct m as [[b|] u]; cbn [buckets used] in *.
  - destruct (f k) eqn:Fk.
    + destruct G as (j & -> & E). simpl. destruct H as [I HR].
      eexists. split; [reflexivity|]. split; [|auto].
      split; cbn [buckets used]; [eapply inv_delete; eauto|eapply R_delete; eauto].
    + rewrite G. simpl. eexists. split; [reflexivity|]. split; [|auto].
      destruct H as [I HR]. split; auto. intros k' v'. unfold fdel.
      destruct (keq k k') as [<-|]; [|apply HR]. rewrite (HR k v'). rewrite Fk. split; discriminate.
  - rewrite G. simpl. eexists. split; [reflexivity|]. split; [|auto].
    destruct H as [U Hf]. split; auto. intros k'. unfold fdel. destruct (keq k k'); auto.
Qed.

(** ** Sequences *)
Definition tr (e : event) : op :=
  match e with EPut k v => Put k v | EGet k => Get k | EDel k => Delete k end.

Fixpoint state (past : list event) (k : key) : option Z :=
  match past with
  | [] => None
  | EPut k' v :: r => if keq k' k then Some v else state r k
  | EDel k' :: r => if keq k' k then None else state r k
  | EGet _ :: r => state r k
  end.

Lemma answer_state past k : answer past k = match state past k with Some v => v | None => 0 end.
Proof. induction past as [|[k' v|k'|k'] r IH]; simpl; auto; destruct (keq k' k); auto. Qed.

Lemma run_ok todo : forall past m,
  rep m (state past) -> 0 <= used m -> used m + puts todo <= 21474837 ->
  exists m', run hash (map tr todo) m = Ok (answers past todo, m').
Proof.
  induction todo as [|e todo IH]; intros past m H U L.
  - simpl. eauto.
  - assert (P : 0 <= puts todo) by (unfold puts; lia).
    destruct e as [k v|k|k]; cbn [map tr run answers].
    + replace (puts (EPut k v :: todo)) with (1 + puts todo) in L
        by (unfold puts; cbn [filter is_put]; cbn [length]; lia).
      destruct (put_ok m (state past) k v H) as (m1 & E & H1 & U1).
      { unfold INT_MAX; lia. }
      rewrite E. cbn [bind andb fst snd].
      assert (0 <= used m1).
      { unfold rep in H1. destruct (buckets m1).
        - destruct H1 as [I _]. rewrite (inv_used _ _ I). unfold cnt; lia.
        - lia. }
      destruct (IH (EPut k v :: past) m1) as [m2 E2]; eauto. lia.
    + rewrite (get_ok _ _ k H). cbn [bind andb fst snd].
      destruct (IH (EGet k :: past) m) as [m2 E2]; auto.
      rewrite E2. simpl. rewrite <- answer_state. eauto.
    + destruct (delete_ok m (state past) k H) as (m1 & E & H1 & U1).
      rewrite E. cbn [bind andb fst snd].
      destruct (IH (EDel k :: past) m1) as [m2 E2]; eauto; try lia.
      replace (puts (EDel k :: todo)) with (puts todo) in L by reflexivity. lia.
Qed.

(** ** No abort, whatever the length *)
Lemma rep_used m f : rep m f -> 0 <= used m.
Proof.
  unfold rep. destruct (buckets m); [|lia].
  intros [I _]. rewrite (inv_used _ _ I). unfold cnt; lia.
Qed.

Lemma run_no_abort todo : forall f m, rep m f -> run hash (map tr todo) m <> Abort.
Proof.
  induction todo as [|e todo IH]; intros f m H; [discriminate|].
  destruct e as [k v|k|k]; cbn [map tr run].
  - destruct (Z_le_gt_dec (used m * 100) INT_MAX) as [L|L].
    + destruct (put_ok m f k v H L) as (m1 & E & H1 & _). rewrite E. cbn [bind]. eauto.
    + assert (E : hashmap_put hash m k v = UB).
      { unfold hashmap_put. rewrite put2_S. pose proof (rep_used _ _ H).
        unfold rep in H. destruct (buckets m) as [b|].
        - unfold int_of, INT_MIN. destruct (Z.leb_spec (used m * 100) INT_MAX); [lia|].
          rewrite andb_false_r. reflexivity.
        - destruct H as [H _]. rewrite H in L. unfold INT_MAX in L. lia. }
      rewrite E. discriminate.
  - rewrite (get_ok _ _ k H). cbn [bind].
    specialize (IH f m H). destruct (run hash (map tr todo) m); cbn [bind]; congruence.
  - destruct (delete_ok m f k H) as (m1 & E & H1 & _). rewrite E. cbn [bind]. eauto.
Qed.

(** an initialised table keeps a slot that was never used *)
Lemma run_spare todo : forall f m q m', rep m f -> run hash (map tr todo) m = Ok (q, m') ->
  forall b, buckets m' = Some b -> In Empty b.
Proof.
  induction todo as [|e todo IH]; intros f m q m' H; cbn [map tr run].
  - intros E b B. injection E as _ <-. unfold rep in H. rewrite B in H. destruct H as [I _].
    destruct (exists_empty b) as [j Hj]; [rewrite <- (inv_used _ _ I); apply I|].
    eapply nth_error_In; eauto.
  - destruct e as [k v|k|k]; cbn [map tr run].
    + intros E. destruct (Z_le_gt_dec (used m * 100) INT_MAX) as [L|L].
      * destruct (put_ok m f k v H L) as (m1 & E1 & H1 & _). rewrite E1 in E. cbn [bind] in E. eauto.
      * exfalso. revert E. unfold hashmap_put. rewrite put2_S. pose proof (rep_used _ _ H).
        unfold rep in H. destruct (buckets m) as [b|].
        -- unfold int_of, INT_MIN. destruct (Z.leb_spec (used m * 100) INT_MAX); [lia|].
           rewrite andb_false_r. discriminate.
        -- destruct H as [H _]. rewrite H in L. unfold INT_MAX in L. lia.
    + rewrite (get_ok _ _ k H). cbn [bind]. destruct (run hash (map tr todo) m) as [[q1 m1]| |] eqn:E1;
        try discriminate. cbn [bind fst snd]. intros E. injection E as <- <-. eauto.
    + destruct (delete_ok m f k H) as (m1 & E & H1 & _). rewrite E. cbn [bind]. eauto.
Qed.

Lemma hashmap_refines evs :
  puts evs <= 21474837 ->
  exists m', run hash (map tr evs) empty_map = Ok (answers [] evs, m').
Proof. intros H. apply run_ok; [split; reflexivity|simpl; lia|cbn [used empty_map]; lia]. Qed.

(** ** The int overflow is reachable *)
Definition nkey (n : nat) : key := [Z.of_nat n].

Definition fnats (n : nat) (k : key) : option Z :=
  state (map (fun i => EPut (nkey i) 1) (rev (seq 0 n))) k.

(* after inserting n distinct keys without deletions, used = n *)
Fixpoint no_tomb (b : list slot) : Prop :=
  match b with [] => True | Tomb :: _ => False | _ :: r => no_tomb r end.

Lemma no_tomb_live b : no_tomb b -> count_live b = cnt b.
Proof. induction b; [reflexivity|]. rewrite live_cons, cnt_cons.
  destruct a; cbn [is_live nonempty no_tomb]; intros H; try contradiction; rewrite IHb by auto; lia. Qed.

Lemma no_tomb_upd b j k v : no_tomb b -> no_tomb (upd b j (Full k v)).
Proof. revert j; induction b as [|[] b IH]; destruct j; simpl; auto; contradiction. Qed.

Lemma no_tomb_repeat n : no_tomb (repeat Empty n).
Proof. induction n; simpl; auto. Qed.

Lemma insert_probe_no_tomb b u k v m : no_tomb b -> insert_probe hash b u k v = Ok m ->
  exists b', buckets m = Some b' /\ no_tomb b'.
Proof.
  intros H. unfold insert_probe. destruct (probe hash b k (length b) 0); try discriminate.
  - intros E. injection E as <-. eexists; split; [reflexivity|]. apply no_tomb_upd; auto.
  - unfold int_of. destruct (_ && _); try discriminate. simpl.
    intros E. injection E as <-. eexists; split; [reflexivity|]. apply no_tomb_upd; auto.
Qed.

Lemma put2_no_tomb d : forall m k v m',
  (forall b, buckets m = Some b -> no_tomb b) -> put2 hash d m k v = Ok m' ->
  exists b', buckets m' = Some b' /\ no_tomb b'.
Proof.
  induction d as [|d IH]; intros m k v m' H; [discriminate|].
  rewrite put2_S. destruct (buckets m) as [b|] eqn:B.
  - destruct (int_of (used m * 100)); try discriminate. cbn [bind andb fst snd].
    destruct (a / Z.of_nat (length b) >=? 70).
    + unfold rehash. destruct (grow 40 (count_live b) (Z.of_nat (length b))); try discriminate.
      cbn [bind andb fst snd].
      assert (RI : forall r m0 m1, (forall b, buckets m0 = Some b -> no_tomb b) ->
         reinsert (put2 hash d) r m0 = Ok m1 -> (forall b, buckets m1 = Some b -> no_tomb b)).
      { induction r as [|s r IHr]; intros m0 m1 H0 E.
        - injection E as <-. auto.
        - destruct s as [| |k0 v0]; cbn [reinsert] in E; try (eapply IHr; eauto; fail).
          destruct (put2 hash d m0 k0 v0) eqn:Q; try discriminate. cbn [bind andb fst snd] in E.
          eapply IHr; [|exact E]. intros b0 B0. destruct (IH _ _ _ _ H0 Q) as (b1 & B1 & N1).
          congruence. }
      destruct (reinsert (put2 hash d) b _) eqn:Q; try discriminate. cbn [bind andb fst snd].
      destruct (used a1 =? count_live b); try discriminate. cbn [bind andb fst snd].
      destruct (buckets a1) as [b1|] eqn:B1; try discriminate.
      apply insert_probe_no_tomb. eapply RI; [|exact Q|exact B1].
      cbn [buckets]. intros b0 E0. injection E0 as <-. apply no_tomb_repeat.
    + apply insert_probe_no_tomb. auto.
  - apply insert_probe_no_tomb. apply (no_tomb_repeat 16).
Qed.

(* exact growth of [used] without tombstones *)
Lemma put_exact m f k v :
  rep m f -> used m * 100 <= INT_MAX -> (forall b, buckets m = Some b -> no_tomb b) ->
  f k = None ->
  exists m', hashmap_put hash m k v = Ok m' /\ rep m' (fput f k v) /\ used m' = used m + 1 /\
    (forall b, buckets m' = Some b -> no_tomb b).
Proof.
  intros H Hm NT Fk.
  destruct (put_ok m f k v H Hm) as (m' & E & H' & U').
  exists m'. split; [auto|]. split; [auto|]. split.
  - unfold hashmap_put in E. unfold rep in H.
    destruct m as [[b|] u]; cbn [buckets used] in *.
    + destruct H as [I HR]. specialize (NT b eq_refl).
      rewrite put2_S in E. cbn [buckets used] in E.
      destruct (int_of (u * 100)) as [p| |]; cbn [bind andb fst snd] in E; try discriminate.
      destruct (p / Z.of_nat (length b) >=? 70).
      * destruct (rehash_ok 0 b u f I HR Hm) as (b1 & u1 & E1 & I1 & R1 & L1 & H1 & C1).
        rewrite E1 in E. cbn [bind buckets used] in E.
        pose proof (good_cap_bounds _ (inv_cap _ _ I1)).
        destruct (insert_probe_ok b1 u1 f k v) as (b2 & u2 & E2 & I2 & R2 & L2 & U2); auto; try lia.
        rewrite E2 in E. injection E as <-. cbn [used]. rewrite Fk in U2.
        rewrite U2, C1, no_tomb_live by auto. rewrite <- (inv_used _ _ I). auto.
      * destruct (insert_probe hash b u k v) as [m0| |] eqn:Q; try discriminate. injection E as <-.
        unfold insert_probe in Q. pose proof (probe_inv b u k I) as P.
        destruct (probe hash b k (length b) 0); try discriminate.
        -- destruct P as [v0 P]. exfalso.
           assert (X : f k = Some v0) by (apply HR; exists j; auto). congruence.
        -- unfold int_of in Q. destruct (_ && _); try discriminate. cbn [bind andb fst snd] in Q.
           injection Q as <-. reflexivity.
    + destruct H as [-> Hf]. rewrite put2_S in E. cbn [buckets used] in E.
      destruct (insert_probe_ok (repeat Empty 16) 0 f k v) as (b2 & u2 & E2 & I2 & R2 & L2 & U2).
      * apply inv_fresh. apply good16.
      * rewrite repeat_length. lia.
      * intros k' v'. rewrite Hf. apply (R_fresh 16 k' v').
      * rewrite E2 in E. injection E as <-. cbn [used]. rewrite Fk in U2. auto.
  - intros b B. unfold hashmap_put in E. destruct (put2_no_tomb 2 _ _ _ _ NT E) as (b' & B' & N').
    congruence.
Qed.

Definition key_of_Z (z : Z) : key := [z].

(* insertion of the keys [z], [z+1], ... *)
Definition run_puts (zs : list Z) (m : hmap) := run hash (map (fun z => Put (key_of_Z z) 1) zs) m.

Lemma run_app a b m : run hash (a ++ b) m =
  do q <- run hash a m; do q' <- run hash b (snd q); Ok (fst q ++ fst q', snd q').
Proof.
  revert m. induction a as [|o a IH]; intros m; simpl.
  - destruct (run hash b m) as [[? ?]| |]; reflexivity.
  - destruct o.
    + destruct (hashmap_put hash m k v); simpl; auto.
    + destruct (hashmap_get hash m k); simpl; auto. rewrite IH.
      destruct (run hash a m) as [[? ?]| |]; simpl; auto.
      destruct (run hash b h) as [[? ?]| |]; simpl; auto.
    + destruct (hashmap_delete hash m k); simpl; auto.
Qed.

Lemma run_puts_exact n : forall z m f,
  rep m f -> (forall b, buckets m = Some b -> no_tomb b) ->
  (forall z', z <= z' -> f (key_of_Z z') = None) ->
  0 <= used m -> used m + Z.of_nat n <= 21474837 ->
  exists m' f', run hash (map (fun i => Put (key_of_Z (z + Z.of_nat i)) 1) (seq 0 n)) m
                  = Ok ([], m') /\ rep m' f' /\
            used m' = used m + Z.of_nat n.
Proof.
  induction n as [|n IH]; intros z m f H NT Hf U L.
  - simpl. exists m, f. split; [auto|]. split; [auto|lia].
  - cbn [seq map run].
    replace (z + Z.of_nat 0) with z by lia.
    destruct (put_exact m f (key_of_Z z) 1 H) as (m1 & E & H1 & U1 & NT1); auto.
    { unfold INT_MAX. lia. } { apply Hf; lia. }
    rewrite E. cbn [bind andb fst snd].
    destruct (IH (z + 1) m1 (fput f (key_of_Z z) 1)) as (m2 & f2 & E2 & H2 & U2); auto; try lia.
    { intros z' Hz'. unfold fput. destruct (keq _ _) as [X|X].
      - unfold key_of_Z in X. injection X. lia.
      - apply Hf. lia. }
    exists m2, f2. split; [|split; [auto|lia]].
    rewrite <- seq_shift, map_map. erewrite map_ext; [exact E2|].
    intros i. cbn beta. do 2 f_equal. lia.
Qed.

Lemma map_ext' {A B} (f g : A -> B) l : (forall x, f x = g x) -> map f l = map g l.
Proof. intros H. apply map_ext. auto. Qed.

Lemma hashmap_overflow_n n : Z.of_nat n = 21474837 ->
  exists evs, puts evs = 21474838 /\ run hash (map tr evs) empty_map = UB.
Proof.
  intros Hn.
  set (body := map (fun i => EPut (key_of_Z (0 + Z.of_nat i)) 1) (seq 0 n)).
  exists (body ++ [EPut [(-1)] 1]).
  assert (Lb : Z.of_nat (length (filter is_put body)) = 21474837).
  { assert (X : forall l, length (filter is_put
        (map (fun i => EPut (key_of_Z (0 + Z.of_nat i)) 1) l)) = length l).
    { induction l; simpl; auto. }
    unfold body. rewrite X, seq_length. auto. }
  split.
  - unfold puts. rewrite filter_app, app_length. cbn [filter is_put length]. lia.
  - rewrite map_app, run_app.
    replace (map tr body) with (map (fun i => Put (key_of_Z (0 + Z.of_nat i)) 1) (seq 0 n)).
    2:{ unfold body. rewrite map_map. apply map_ext'. reflexivity. }
    destruct (run_puts_exact n 0 empty_map (fun _ => None)) as (m' & f' & E & H' & U').
    + apply rep_empty.
    + discriminate.
    + auto.
    + simpl; lia.
    + cbn [used empty_map]. lia.
    + rewrite E. cbn [bind fst snd map tr run].
      assert (Uv : used m' = 21474837) by (rewrite U'; cbn [used empty_map]; lia).
      unfold hashmap_put. rewrite put2_S.
      destruct (buckets m') as [b|] eqn:B.
      * rewrite Uv. reflexivity.
      * unfold rep in H'. rewrite B in H'. destruct H'. lia.
Qed.

Lemma hashmap_overflow :
  exists evs, puts evs = 21474838 /\ run hash (map tr evs) empty_map = UB.
Proof. eapply hashmap_overflow_n. apply Z2Nat.id. lia. Qed.
End Hash.
