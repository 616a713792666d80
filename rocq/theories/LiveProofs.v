(** Proofs about dead function elimination. *)
From Coq Require Import ZArith List Bool Lia Arith.
From Verif Require Import Base LiveSpec LiveModel.
Import ListNotations.

Section Live.
Variable find_func : list Z -> option nat.
Variable gs : list global.
Hypothesis NO : names_ok find_func gs.

Notation mentions := (mentions find_func gs).
Notation mark := (mark_fn_live find_func gs).
Notation marks fuel := (mark_refs find_func (mark_fn_live find_func gs fuel)).

(** Reached from [i] by mentions. *)
Inductive path : nat -> nat -> Prop :=
| p_refl i : path i i
| p_step i j k : mentions i j -> path j k -> path i k.

(** What marking does: [from] are the starting points, [done] those whose mentions are still
    being worked on. *)
Definition grew (l l' : live_set) (from : nat -> Prop) : Prop :=
  (forall x, l x = true -> l' x = true) /\
  (forall x, l' x = true -> l x = true \/ exists s, from s /\ path s x) /\
  (forall x, l' x = true -> l x = true \/ forall y, mentions x y -> l' y = true).

Definition unmarked (l : live_set) : nat := length (filter (fun i => negb (l i)) (seq 0 (length gs))).

Lemma filter_le {A} (p q : A -> bool) l : (forall x, p x = true -> q x = true) ->
  (length (filter p l) <= length (filter q l))%nat.
Proof.
  intros H. induction l as [|a r IH]; cbn [filter]; [lia|].
  destruct (p a) eqn:E; [rewrite (H a E); cbn [length]; lia|]. destruct (q a); cbn [length]; lia.
Qed.
Lemma filter_lt {A} (p q : A -> bool) l a : (forall x, p x = true -> q x = true) ->
  In a l -> p a = false -> q a = true -> (length (filter p l) < length (filter q l))%nat.
Proof.
  intros H. induction l as [|b r IH]; intros IN P Q; [destruct IN|]. cbn [filter].
  destruct IN as [->|IN].
  - rewrite P, Q. cbn [length]. pose proof (filter_le p q r H). lia.
  - specialize (IH IN P Q). destruct (p b) eqn:E; [rewrite (H b E); cbn [length]; lia|].
    destruct (q b); cbn [length]; lia.
Qed.
Lemma unmarked_le l l' : (forall x, l x = true -> l' x = true) -> (unmarked l' <= unmarked l)%nat.
Proof.
  intros H. apply filter_le. intros x. destruct (l x) eqn:E; [rewrite (H x E); auto|auto].
Qed.
Lemma unmarked_set l i : l i = false -> (i < length gs)%nat -> (unmarked (set_live l i) < unmarked l)%nat.
Proof.
  intros E L. apply (filter_lt _ _ _ i).
  - intros x. unfold set_live. destruct (Nat.eqb x i); [discriminate|auto].
  - apply in_seq. lia.
  - unfold set_live. now rewrite Nat.eqb_refl.
  - now rewrite E.
Qed.

Lemma mark_ok fuel : forall i l, (i < length gs)%nat -> (unmarked l < fuel)%nat ->
  exists l', mark fuel i l = Ok l' /\ l' i = true /\ grew l l' (eq i).
Proof.
  induction fuel as [|f IH]; intros i l L F; [lia|]. cbn [mark_fn_live].
  destruct (l i) eqn:LI.
  { exists l. split; [reflexivity|]. split; [exact LI|]. repeat split; auto. }
  assert (K : forall ns l0, (forall n, In n ns -> In n (refs_of gs i)) -> (unmarked l0 < f)%nat ->
    exists l', marks f ns l0 = Ok l' /\
      grew l0 l' (fun j => exists n, In n ns /\ find_func n = Some j) /\
      forall n j, In n ns -> find_func n = Some j -> l' j = true).
  { induction ns as [|n r IHr]; intros l0 SUB U; cbn [mark_refs].
    - exists l0. split; [reflexivity|]. split; [repeat split; auto|intros n j []].
    - destruct (find_func n) as [j|] eqn:FN.
      + destruct (IH j l0 (NO n j FN) U) as (l1 & E1 & M1 & A1 & B1 & C1). rewrite E1. cbn [bind].
        destruct (IHr l1) as (l2 & E2 & (A2 & B2 & C2) & M2).
        { intros m Hm. apply SUB. now right. }
        { pose proof (unmarked_le _ _ A1). lia. }
        exists l2. split; [exact E2|]. split.
        * repeat split; auto.
          -- intros x Hx. destruct (B2 x Hx) as [H|(s & (m & Hm & Fm) & P)].
             ++ destruct (B1 x H) as [H'|(s & <- & P)]; auto. right. exists j. split; auto. exists n. split; [now left|auto].
             ++ right. exists s. split; auto. exists m. split; [now right|auto].
          -- intros x Hx. destruct (C2 x Hx) as [H|H]; auto. destruct (C1 x H) as [H'|H']; auto.
        * intros m k [<-|Hm] Fm; [|eapply M2; eauto]. rewrite FN in Fm. inversion Fm; subst. auto.
      + cbn [bind]. destruct (IHr l0) as (l2 & E2 & (A2 & B2 & C2) & M2); auto.
        { intros m Hm. apply SUB. now right. }
        exists l2. split; [exact E2|]. split.
        * repeat split; auto. intros x Hx. destruct (B2 x Hx) as [H|(s & (m & Hm & Fm) & P)]; auto.
          right. exists s. split; auto. exists m. split; [now right|auto].
        * intros m k [<-|Hm] Fm; [congruence|eapply M2; eauto]. }
  destruct (K (refs_of gs i) (set_live l i)) as (l' & E & (A & B & C) & M); auto.
  { pose proof (unmarked_set l i LI L). lia. }
  assert (SI : set_live l i i = true) by (unfold set_live; now rewrite Nat.eqb_refl).
  assert (MEN : forall n j, In n (refs_of gs i) -> find_func n = Some j -> mentions i j).
  { intros n j Hn Fn. unfold refs_of in Hn. destruct (nth_error gs i) as [g|] eqn:G; [|destruct Hn].
    exists g, n. auto. }
  exists l'. split; [exact E|]. split; [apply A, SI|]. repeat split.
  - intros x Hx. apply A. unfold set_live. destruct (Nat.eqb x i); auto.
  - intros x Hx. destruct (B x Hx) as [H|(s & (n & Hn & Fn) & P)].
    + unfold set_live in H. destruct (Nat.eqb_spec x i) as [->|]; auto. right. exists i. split; [auto|constructor].
    + right. exists i. split; [auto|]. econstructor; [eapply MEN; eauto|exact P].
  - intros x Hx. destruct (C x Hx) as [H|H]; auto. unfold set_live in H.
    destruct (Nat.eqb_spec x i) as [->|]; auto. right. intros y (g & n & G & Hn & Fn).
    eapply M; eauto. unfold refs_of. now rewrite G.
Qed.

Lemma unmarked_all l : (unmarked l <= length gs)%nat.
Proof.
  unfold unmarked. pose proof (filter_le (fun i => negb (l i)) (fun _ => true) (seq 0 (length gs)) ltac:(auto)) as H.
  assert (E : forall k s, length (filter (fun _ : nat => true) (seq s k)) = k).
  { induction k; intros s; cbn [seq filter length]; auto. }
  rewrite E in H. exact H.
Qed.

Lemma roots_here_spec g : roots_here g = true <->
  gdef g = true /\ gfunc g = true /\ (mentioned g = true \/ gstatic g = false \/ ginline g = false).
Proof.
  unfold roots_here. destruct (gdef g), (gfunc g), (mentioned g), (gstatic g), (ginline g); cbn; intuition congruence.
Qed.

Lemma mark_roots_ok fuel rest : forall i l, (length gs < fuel)%nat ->
  (forall k, nth_error gs (i + k) = nth_error rest k) ->
  exists l', mark_roots find_func gs fuel i rest l = Ok l' /\
    grew l l' (fun j => (i <= j)%nat /\ is_root gs j) /\
    forall j, (i <= j)%nat -> is_root gs j -> l' j = true.
Proof.
  induction rest as [|g r IH]; intros i l F SUF; cbn [mark_roots].
  - exists l. split; [reflexivity|]. split; [repeat split; auto|]. intros j Hj (g & G & _).
    specialize (SUF (j - i)%nat). replace (i + (j - i))%nat with j in SUF by lia. rewrite G in SUF.
    destruct (j - i)%nat; discriminate.
  - assert (G0 : nth_error gs i = Some g) by (specialize (SUF O); rewrite Nat.add_0_r in SUF; exact SUF).
    assert (LI : (i < length gs)%nat) by (apply nth_error_Some; congruence).
    assert (S1 : forall k, nth_error gs (S i + k) = nth_error r k).
    { intros k. specialize (SUF (S k)). cbn [nth_error] in SUF. rewrite <- SUF. f_equal. lia. }
    assert (K : exists l1, (if roots_here g then mark fuel i l else Ok l) = Ok l1 /\
      grew l l1 (fun j => j = i /\ is_root gs j) /\ (is_root gs i -> l1 i = true)).
    { destruct (roots_here g) eqn:RH.
      - apply roots_here_spec in RH. destruct RH as (? & ? & ?).
        destruct (mark_ok fuel i l LI) as (l1 & E & M & A & B & C).
        { pose proof (unmarked_all l). lia. }
        exists l1. split; [exact E|]. split; [|auto]. repeat split; auto.
        intros x Hx. destruct (B x Hx) as [Hl|(s & <- & P)]; auto. right. exists i. split; auto. split; auto. exists g. auto.
      - exists l. split; [reflexivity|]. split; [repeat split; auto|]. intros (g' & G' & D & Fn & W).
        rewrite G0 in G'. inversion G'; subst g'.
        assert (X : roots_here g = true) by (apply roots_here_spec; auto). congruence. }
    destruct K as (l1 & E1 & (A1 & B1 & C1) & M1). rewrite E1. cbn [bind].
    destruct (IH (S i) l1 F S1) as (l2 & E2 & (A2 & B2 & C2) & M2).
    exists l2. split; [exact E2|]. split.
    + repeat split; auto.
      * intros x Hx. destruct (B2 x Hx) as [H|(s & [Ls Rs] & P)].
        -- destruct (B1 x H) as [H'|(s & [-> Rs] & P)]; auto. right. exists i. split; auto.
        -- right. exists s. split; auto. split; [lia|auto].
      * intros x Hx. destruct (C2 x Hx) as [H|H]; auto. destruct (C1 x H) as [H'|H']; auto.
    + intros j Lj Rj. destruct (Nat.eq_dec j i) as [->|]; [apply A2; auto|]. apply M2; [lia|auto].
Qed.

Lemma needed_path i j : needed find_func gs i -> path i j -> needed find_func gs j.
Proof. intros H P. induction P as [|i j k M P IH]; auto. apply IH. eapply n_mention; eauto. Qed.

Lemma live_ok : exists l, mark_roots find_func gs (S (length gs)) 0 gs (fun _ => false) = Ok l /\
  forall i, l i = true <-> needed find_func gs i.
Proof.
  destruct (mark_roots_ok (S (length gs)) gs 0 (fun _ => false)) as (l & E & (A & B & C) & M); auto.
  exists l. split; [exact E|]. intros i. split.
  - intros H. destruct (B i H) as [D|(s & [_ Rs] & P)]; [discriminate|]. eapply needed_path; eauto. now constructor.
  - induction 1 as [i Ri|i j N IH MN]; [apply M; [lia|auto]|].
    destruct (C i IH) as [D|D]; [discriminate|auto].
Qed.

Lemma written_in l rest : forall i j,
  In j (written i rest l) <-> (i <= j)%nat /\ l j = true /\
    exists g, nth_error rest (j - i) = Some g /\ gdef g = true /\ gfunc g = true.
Proof.
  induction rest as [|g r IH]; intros i j; cbn [written].
  - split; [intros []|]. intros (_ & _ & g & G & _). destruct (j - i)%nat; discriminate.
  - rewrite in_app_iff, IH. split.
    + intros [H|(Lj & Lv & g' & G' & D)].
      * destruct (gdef g) eqn:Gd; [|destruct H]. destruct (gfunc g) eqn:Gf; [|destruct H].
        destruct (l i) eqn:Li; [|destruct H]. destruct H as [<-|[]]. split; [lia|]. split; auto. exists g.
        rewrite Nat.sub_diag. auto.
      * split; [lia|]. split; auto. exists g'. replace (j - i)%nat with (S (j - S i)) by lia. auto.
    + intros (Lj & Lv & g' & G' & D & Fn). destruct (Nat.eq_dec j i) as [->|].
      * left. rewrite Nat.sub_diag in G'. inversion G'; subst g'. rewrite D, Fn, Lv. now left.
      * right. split; [lia|]. split; auto. exists g'. replace (j - i)%nat with (S (j - S i)) in G' by lia. auto.
Qed.
Lemma written_ge l rest : forall i j, In j (written i rest l) -> (i <= j)%nat.
Proof. intros i j H. apply written_in in H. tauto. Qed.
Lemma written_nodup l rest : forall i, NoDup (written i rest l).
Proof.
  induction rest as [|g r IH]; intros i; cbn [written]; [constructor|].
  assert (NI : ~ In i (written (S i) r l)) by (intros H; apply written_ge in H; lia).
  destruct (gdef g); cbn [negb app]; auto. destruct (gfunc g); cbn [app]; auto. destruct (l i); cbn [app]; auto.
  constructor; auto.
Qed.

Lemma functions_written_ok : exists w, functions_written find_func gs = Ok w /\ NoDup w /\
  forall i, In i w <-> needed find_func gs i /\ exists g, nth_error gs i = Some g /\ gdef g = true /\ gfunc g = true.
Proof.
  destruct live_ok as (l & E & H). unfold functions_written. rewrite E. cbn [bind].
  exists (written 0 gs l). split; [reflexivity|]. split; [apply written_nodup|]. intros i.
  rewrite written_in, H, Nat.sub_0_r. intuition lia.
Qed.

(** Nothing a written function mentions is missing, and definitions visible outside are written. *)
Lemma written_closed w i j g : functions_written find_func gs = Ok w -> In i w -> mentions i j ->
  nth_error gs j = Some g -> gdef g = true -> gfunc g = true -> In j w.
Proof.
  intros E H MN G D Fn. destruct functions_written_ok as (w' & E' & _ & W). rewrite E in E'. inversion E'; subst w'.
  apply W in H. apply W. split; [eapply n_mention; [apply H|auto]|eauto].
Qed.
Lemma written_roots w i : functions_written find_func gs = Ok w -> is_root gs i -> In i w.
Proof.
  intros E H. destruct functions_written_ok as (w' & E' & _ & W). rewrite E in E'. inversion E'; subst w'.
  apply W. split; [now constructor|]. destruct H as (g & G & D & Fn & _). eauto.
Qed.
End Live.
