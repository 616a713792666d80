(** C12: macro expansion terminates when the macro bodies have balanced parentheses. *)
From Coq Require Import Ascii String ZArith List Bool Lia Wellfounded Sorted.
From Verif Require Import Base PpSpec MacSpec MacModel MacProofs.
Import ListNotations.
Local Open Scope string_scope.
Local Open Scope list_scope.

(** *** Lexicographic order on lists of one length *)
Inductive lex : list nat -> list nat -> Prop :=
| lex_hd x y a b : (x < y)%nat -> length a = length b -> lex (x :: a) (y :: b)
| lex_tl x a b : lex a b -> lex (x :: a) (x :: b).
Lemma lex_length a b : lex a b -> length a = length b.
Proof. induction 1; cbn [length]; congruence. Qed.
Lemma lex_wf n : forall v, length v = n -> Acc lex v.
Proof.
  induction n as [|n IH]; intros v L.
  - destruct v; [|discriminate]. constructor. intros w H. inversion H.
  - destruct v as [|x v]; [discriminate|]. cbn [length] in L. injection L as L. revert v L.
    induction x as [x IHx] using (well_founded_induction Wf_nat.lt_wf). intros v L. pose proof (IH v L) as A. induction A as [v A IHv].
    constructor. intros w H. inversion H as [x' y' a b Hx Hl|x' a b Hl]; subst.
    + apply IHx; [assumption|]. congruence.
    + apply IHv; [assumption|]. apply lex_length in Hl. congruence.
Qed.

(** *** Sizes of the segments between stop tokens, lowest first *)
Fixpoint vec (N low : nat) (stops : list nat) (L : nat) : list nat :=
  match N with
  | O => []
  | S N' =>
      match stops with
      | [] => (L - low)%nat :: repeat 0%nat N'
      | s :: r => (s - low)%nat :: vec N' s r L
      end
  end.
Lemma vec_length N : forall low stops L, length (vec N low stops L) = N.
Proof. induction N as [|N IH]; intros low stops L; [reflexivity|]. cbn [vec]. destruct stops; cbn [length]; [rewrite repeat_length; reflexivity|rewrite IH; reflexivity]. Qed.
(** Keep the lower stops [a], replace the others: the segment above [a] shrinks. *)
Lemma vec_lex a : forall N low b b' L L',
  (length a < N)%nat -> (match b' with [] => L' | s :: _ => s end < match b with [] => L | s :: _ => s end)%nat ->
  (last a low <= match b' with [] => L' | s :: _ => s end)%nat ->
  lex (vec N low (a ++ b') L') (vec N low (a ++ b) L).
Proof.
  induction a as [|s a IH]; intros N low b b' L L' HN HL HB.
  - destruct N as [|N]; [cbn [length] in HN; lia|]. cbn [app vec last] in *. destruct b' as [|s' b'], b as [|s b]; apply lex_hd; rewrite ?repeat_length, ?vec_length; try reflexivity; lia.
  - destruct N as [|N]; [cbn [length] in HN; lia|]. cbn [app vec]. apply lex_tl. apply IH; [cbn [length] in HN; lia|exact HL|].
    destruct a as [|s2 a]; [exact HB|]. change (last (s :: s2 :: a) low) with (last (s2 :: a) low) in HB. 
    assert (E : forall (l : list nat) x y z, last (z :: l) x = last (z :: l) y) by (induction l as [|w l IHl]; intros x y z; [reflexivity|apply (IHl x y w)]).
    rewrite (E a s low s2). exact HB.
Qed.

(** *** The lock stack *)
Definition stops (own : list (string * nat)) : list nat := map snd own.
Inductive down : list nat -> Prop :=
| down_nil : down []
| down_one s : down [s]
| down_cons s s2 l : (s2 <= s)%nat -> down (s2 :: l) -> down (s :: s2 :: l).
Lemma down_tail s l : down (s :: l) -> down l.
Proof. inversion 1; subst; [constructor|assumption]. Qed.
Lemma down_push s l : (forall x, In x l -> (x <= s)%nat) -> down l -> down (s :: l).
Proof. intros H D. destruct l as [|x l]; [constructor|]. constructor; [apply H; left; reflexivity|exact D]. Qed.
Lemma down_le s l : down (s :: l) -> forall x, In x l -> (x <= s)%nat.
Proof.
  revert s. induction l as [|y l IH]; intros s D x Hx; [destruct Hx|]. inversion D as [| |s0 s2 l2 LE D2]; subst. destruct Hx as [<-|Hx]; [exact LE|].
  specialize (IH y D2 x Hx). lia.
Qed.
Lemma down_app p o : down (p ++ o) -> down o.
Proof. induction p as [|x p IH]; [auto|]. intros D. apply down_tail in D. auto. Qed.
Lemma pop_spec own n : down (stops own) -> (forall x, In x (stops own) -> (x <= n)%nat) ->
  exists p, own = p ++ pop own n /\ (forall x, In x (stops p) -> x = n) /\ (forall x, In x (stops (pop own n)) -> (x < n)%nat).
Proof.
  induction own as [|[m s] own IH]; intros D H; cbn [pop]; [exists []; repeat split; intros x []|].
  destruct (Nat.eqb_spec s n) as [->|NE].
  - destruct IH as [p [E1 [E2 E3]]]; [eapply down_tail; exact D|intros x Hx; apply H; right; exact Hx|]. exists ((m, n) :: p). rewrite E1 at 1. repeat split; [|exact E3].
    intros x [<-|Hx]; [reflexivity|auto].
  - exists []. repeat split; [intros x []|]. assert (s <= n)%nat by (apply H; left; reflexivity). intros x [<-|Hx]; [cbn [snd]; lia|].
    pose proof (down_le _ _ D x Hx). cbn [snd] in *. lia.
Qed.

(** The part of each segment not yet read is the end of a balanced list. *)
Fixpoint inv (own : list (string * nat)) (l : list mtok) : Prop :=
  match own with
  | [] => True
  | (_, s) :: o => exists top low, l = top ++ low /\ length low = s /\ (exists d, wk d top = Some 0%nat) /\ inv o low
  end.
Lemma wk_tail t l d : wk d (t :: l) = Some 0%nat -> exists d', wk d' l = Some 0%nat.
Proof. rewrite wk_cons. destruct (eqt t "("); [eauto|]. destruct (eqt t ")"); [|eauto]. destruct d; [discriminate|eauto]. Qed.
Lemma inv_step own t r : (forall x, In x (stops own) -> (x <= length r)%nat) -> inv own (t :: r) -> inv own r.
Proof.
  destruct own as [|[m s] o]; [auto|]. intros H [top [low [E [L [[d W] I0]]]]]. specialize (H s (or_introl eq_refl)).
  destruct top as [|x top]; cbn [app] in E; [subst low; cbn [length] in L; lia|]. injection E as <- ->. exists top, low. repeat split; auto. eapply wk_tail; exact W.
Qed.
Lemma inv_pop own l : inv own l -> inv (pop own (length l)) l.
Proof.
  induction own as [|[m s] o IH]; [auto|]. intros H. cbn [pop]. destruct (Nat.eqb_spec s (length l)) as [->|NE]; [|exact H].
  apply IH. destruct H as [top [low [E [L [_ I0]]]]]. destruct top; [cbn [app] in E; subst; exact I0|]. subst l. cbn [app length] in L. rewrite app_length in L. lia.
Qed.

Section Term.
Variable paste : mtok -> mtok -> outcome mtok.
Hypothesis Hp : paste_ok paste.
Hypothesis Hpt : forall a b, paste a b <> UB.
Variable strict : bool.
Variable tbl : mtable.
Hypothesis Ht : tbl_ok tbl.
Notation find_mac := (find_mac tbl).
Notation prepare := (prepare tbl).
Notation expand := (expand paste strict tbl).
Notation after := (after paste strict tbl).

Lemma after_mono f g outer t b own2 r2 : (forall own l, le_o (expand f outer own l) (expand g outer own l)) -> le_o (after f outer t b own2 r2) (after g outer t b own2 r2).
Proof. intros H. unfold MacProofs.after. destruct b; apply H. Qed.
Lemma expand_mono f : forall g outer own l, (f <= g)%nat -> le_o (expand f outer own l) (expand g outer own l).
Proof.
  induction f as [|f IH]; intros g outer own l L; [intros N; exfalso; apply N; reflexivity|]. destruct g as [|g]; [lia|]. assert (L' : (f <= g)%nat) by lia.
  destruct l as [|t r]; [apply le_o_refl|]. rewrite !expand_cons. cbv zeta.
  assert (EM : forall u : mtok, le_o (do o <- expand f outer (pop own (length r)) r; Ok (u :: o)) (do o <- expand g outer (pop own (length r)) r; Ok (u :: o))).
  { intros u. apply le_o_bind; [apply IH; exact L'|]. intros x. apply le_o_refl. }
  destruct (noexp t); [apply EM|]. destruct (find_mac t) as [m|]; [|apply EM]. destruct (locked outer own (mtext t)); [apply EM|].
  destruct (mobj m).
  - apply le_o_bind; [apply le_o_refl|]. intros b. apply after_mono. intros; apply IH; exact L'.
  - destruct (eqh r "("); [|apply EM]. apply le_o_bind; [apply le_o_refl|]. intros [[own2 pre] r3]. apply le_o_bind; [apply le_o_refl|]. intros a.
    apply le_o_bind; [apply subst_mono; intros x; apply IH; exact L'|]. intros b. apply after_mono. intros; apply IH; exact L'.
Qed.
Lemma prepare_total outer : forall l own lvl, prepare outer own lvl l <> UB.
Proof. induction l as [|t l IH]; intros own lvl; [discriminate|]. rewrite prepare_cons. cbv zeta. destruct (_ && _); [discriminate|]. specialize (IH (pop own (length (t :: l))) (lvl' t lvl)). destruct (prepare _ _ _ l) as [[[o a] q]| |]; cbn [bind]; congruence. Qed.
Lemma read_args_total va : forall n first l, read_args strict va n first l <> UB.
Proof.
  induction n as [|n IH]; intros first l; cbn [read_args]; [destruct (eqh l ")"); discriminate|].
  destruct (va && Nat.eqb n 0 && eqh l ")").
  - pose proof (read_arg_total (va && Nat.eqb n 0) l 0) as RT. destruct (read_arg_one _ 0 l); cbn [bind]; try congruence. destruct (eqh _ _); discriminate.
  - assert (H : (if first then Ok l else match l with t :: r => if eqt t "," then Ok r else Abort | [] => Abort end) <> UB).
    { destruct first; [discriminate|]. destruct l as [|t r]; [discriminate|]. destruct (eqt t ","); discriminate. }
    destruct (if first then Ok l else _) as [x| |]; cbn [bind]; try congruence.
    pose proof (read_arg_total (va && Nat.eqb n 0) x 0) as RT. destruct (read_arg_one _ 0 x) as [q| |]; cbn [bind]; try congruence.
    specialize (IH false (snd q)). destruct (read_args strict va n false (snd q)); cbn [bind]; congruence.
Qed.
Lemma insert_total : forall l acc, insert_objlike paste acc l <> UB.
Proof.
  intros l. remember (length l) as n eqn:L. assert (L' : (length l <= n)%nat) by lia. clear L. revert l L'.
  induction n as [|n IH]; intros l L acc; (destruct l as [|t l]; [discriminate|]); cbn [length] in L; [lia|]. cbn [insert_objlike]. destruct (eqt t "##").
  - destruct acc as [|cur acc]; [discriminate|]. destruct l as [|u l]; [discriminate|]. pose proof (Hpt cur u) as P. destruct (paste cur u); cbn [bind]; try congruence. apply IH. cbn [length] in L. lia.
  - apply IH. lia.
Qed.
(** What prepare does to the locks. *)
Lemma prepare_locks outer : forall l own lvl o a r, down (stops own) -> (forall x, In x (stops own) -> (x <= length l)%nat) -> inv own l ->
  prepare outer own lvl l = Ok (o, a, r) ->
  exists p, own = p ++ o /\ (forall x, In x (stops p) -> (length r < x)%nat) /\ (forall x, In x (stops o) -> (x <= length r)%nat) /\ inv o r /\ (length r < length l)%nat.
Proof.
  induction l as [|t l IH]; intros own lvl o a r D B IV H; [discriminate|]. rewrite prepare_cons in H. cbv zeta in H.
  destruct (pop_spec own (length (t :: l)) D B) as [p [E [P1 P2]]]. apply inv_pop in IV. set (own' := pop own (length (t :: l))) in *. cbn [length] in P1, P2.
  assert (B' : forall x, In x (stops own') -> (x <= length l)%nat) by (intros x Hx; specialize (P2 x Hx); lia).
  pose proof (inv_step _ _ _ B' IV) as IV'. assert (D' : down (stops own')) by (rewrite E in D; unfold stops in D; rewrite map_app in D; apply down_app in D; exact D).
  destruct (Nat.eqb lvl 0 && eqt t ")").
  - injection H as <- <- <-. exists p. repeat split; auto. intros x Hx. rewrite (P1 x Hx). lia.
  - bnd H. destruct x as [[o' a'] r']. injection H as <- <- <-. destruct (IH _ _ _ _ _ D' B' IV' E0) as [p' [E' [Q1 [Q2 [Q3 Q4]]]]].
    exists (p ++ p'). repeat split; auto.
    + rewrite E, E', <- app_assoc. reflexivity.
    + intros x Hx. unfold stops in Hx. rewrite map_app in Hx. apply in_app_or in Hx. destruct Hx as [Hx|Hx]; [rewrite (P1 x Hx); lia|auto].
    + cbn [length]. lia.
Qed.
(** A group opened inside a segment is closed inside it. *)
Lemma group_inside l0 q r3 top low d : l0 ++ q :: r3 = top ++ low -> wk 0 l0 = Some 0%nat -> wk (S d) top = Some 0%nat -> (length low <= length r3)%nat.
Proof.
  intros E W0 W. destruct (Nat.le_gt_cases (length low) (length r3)) as [H|H]; [exact H|exfalso].
  assert (LL : (length l0 + S (length r3) = length top + length low)%nat) by (apply (f_equal (@length _)) in E; rewrite !app_length in E; cbn [length] in E; lia).
  assert (EX : exists x, l0 = top ++ x).
  { exists (skipn (length top) l0). rewrite <- (firstn_skipn (length top) l0) at 1. f_equal.
    assert (G : firstn (length top) (l0 ++ q :: r3) = firstn (length top) (top ++ low)) by congruence.
    rewrite !firstn_app in G. replace (length top - length l0)%nat with 0%nat in G by lia. rewrite Nat.sub_diag in G. cbn [firstn] in G. rewrite !app_nil_r, firstn_all in G. exact G. }
  destruct EX as [x ->]. rewrite wk_app in W0. destruct (wk 0 top) as [j|] eqn:J; [|discriminate]. apply (wk_plus _ _ _ (S d)) in J. cbn [Nat.add] in J. rewrite W in J. injection J as J. lia.
Qed.

(** Popping locks whose stop is reached does not change the sizes. *)
Lemma vec_zero N : forall L p, (length p < N)%nat -> (forall x, In x p -> x = L) -> vec N L p L = repeat 0%nat N.
Proof.
  induction N as [|N IH]; intros L p HN H; [lia|]. cbn [vec]. destruct p as [|s p]; [rewrite Nat.sub_diag; reflexivity|]. rewrite (H s) by (left; reflexivity). rewrite Nat.sub_diag. cbn [repeat]. f_equal.
  apply IH; [cbn [length] in HN; lia|]. intros x Hx. apply H. right. exact Hx.
Qed.
Lemma vec_pop a : forall N low p L, (length (a ++ p) < N)%nat -> (forall x, In x p -> x = L) -> vec N low (a ++ p) L = vec N low a L.
Proof.
  induction a as [|s a IH]; intros N low p L HN H; (destruct N as [|N]; [reflexivity|]).
  - cbn [app vec]. destruct p as [|s p]; [reflexivity|]. rewrite (H s) by (left; reflexivity). f_equal. apply vec_zero; [cbn [app length] in HN; lia|]. intros x Hx. apply H. right. exact Hx.
  - cbn [app vec]. f_equal. apply IH; [cbn [app length] in HN; lia|exact H].
Qed.
Lemma NoDup_drop {A} (a b : list A) : NoDup (a ++ b) -> NoDup b.
Proof. induction a as [|x a IH]; [auto|]. intros H. inversion H; subst. auto. Qed.

Definition K : list string := nodup string_dec (map fst tbl).
Lemma lookup_in {A} s (l : list (string * A)) x : lookup s l = Some x -> In s (map fst l).
Proof.
  unfold lookup. destruct (find _ l) as [q|] eqn:F; [|discriminate]. intros _. apply find_some in F. destruct F as [F1 F2]. apply String.eqb_eq in F2. subst s. apply in_map. exact F1.
Qed.
Record state_ok (outer : list string) (own : list (string * nat)) (l : list mtok) : Prop := {
  so_nodup : NoDup (names own ++ outer);
  so_incl : incl (names own ++ outer) K;
  so_down : down (stops own);
  so_stop : forall x, In x (stops own) -> (x < length l)%nat;
  so_inv : inv own l
}.
Lemma state_size outer own l : state_ok outer own l -> (length own + length outer <= length K)%nat.
Proof. intros [H1 H2 _ _ _]. pose proof (NoDup_incl_length H1 H2) as H. rewrite app_length in H. unfold names in H. rewrite map_length in H. exact H. Qed.
Lemma state_drop outer p o l l' : state_ok outer (p ++ o) l -> (forall x, In x (stops o) -> (x < length l')%nat) -> inv o l' -> state_ok outer o l'.
Proof.
  intros [H1 H2 H3 _ _] B IV. unfold names, stops in *. rewrite map_app in *. constructor; auto.
  - rewrite <- app_assoc in H1. apply NoDup_drop in H1. exact H1.
  - intros x Hx. apply H2. rewrite <- app_assoc. apply in_or_app. right. exact Hx.
  - apply down_app in H3. exact H3.
Qed.
Definition meas N own (l : list mtok) := vec N 0 (rev (stops own)) (length l).

Lemma stops_app p o : stops (p ++ o) = stops p ++ stops o.
Proof. apply map_app. Qed.
Lemma last_rev_le o n : (forall x, In x (stops o) -> (x <= n)%nat) -> (last (rev (stops o)) 0 <= n)%nat.
Proof.
  intros H. destruct (rev (stops o)) as [|y z] eqn:E; [cbn [last]; lia|]. rewrite <- E. apply H. apply in_rev. rewrite E.
  assert (G : forall (l : list nat) w, In (last (w :: l) 0%nat) (w :: l)) by (induction l as [|v l IHl]; intros w; [left; reflexivity|right; apply IHl]). apply G.
Qed.
(** Reading on after dropping the locks [p] and pushing one or none. *)
Lemma meas_drop N p o l r : (length (p ++ o) < N)%nat -> (forall x, In x (stops p) -> (length r < x)%nat) -> (forall x, In x (stops o) -> (x <= length r)%nat) -> (length r < length l)%nat ->
  lex (meas N o r) (meas N (p ++ o) l) /\ forall m b, lex (meas N ((m, length r) :: o) (b ++ r)) (meas N (p ++ o) l).
Proof.
  intros HN HP HO HL. unfold meas. rewrite stops_app, rev_app_distr.
  assert (HB : (length r < match rev (stops p) with [] => length l | s :: _ => s end)%nat).
  { destruct (rev (stops p)) as [|s y] eqn:E; [exact HL|]. apply HP. apply in_rev. rewrite E. left. reflexivity. }
  rewrite app_length in HN. assert (HA : (length (rev (stops o)) < N)%nat) by (rewrite rev_length; unfold stops; rewrite map_length; lia). split.
  - pose proof (vec_lex (rev (stops o)) N 0 (rev (stops p)) [] (length l) (length r) HA HB (last_rev_le _ _ HO)) as V. rewrite app_nil_r in V. exact V.
  - intros m b. unfold stops at 1. cbn [map snd rev]. fold (stops o). apply (vec_lex (rev (stops o)) N 0 (rev (stops p)) [length r] (length l)); [exact HA|exact HB|apply last_rev_le; exact HO].
Qed.
Lemma meas_pop N o r : (length o < N)%nat -> down (stops o) -> (forall x, In x (stops o) -> (x <= length r)%nat) -> meas N (pop o (length r)) r = meas N o r.
Proof.
  intros HN D H. destruct (pop_spec o (length r) D H) as [p [E [P1 _]]]. unfold meas. rewrite E at 2. rewrite stops_app, rev_app_distr. symmetry. apply vec_pop.
  - rewrite app_length, !rev_length. unfold stops. rewrite !map_length. rewrite E, app_length in HN. lia.
  - intros x Hx. apply P1. apply in_rev. exact Hx.
Qed.
Lemma or_space_length r t : length (or_space r t) = length r.
Proof. destruct r; reflexivity. Qed.
Lemma inv_txt own : forall l l', txt l = txt l' -> inv own l -> inv own l'.
Proof.
  induction own as [|[m s] o IH]; [auto|]. intros l l' E [top [low [-> [L [[d W] IV]]]]].
  assert (LE : length l' = length (top ++ low)) by (apply (f_equal (@length _)) in E; unfold txt in E; rewrite !map_length in E; congruence). rewrite app_length in LE.
  exists (firstn (length top) l'), (skipn (length top) l'). split; [symmetry; apply firstn_skipn|]. split; [rewrite skipn_length; lia|].
  assert (E1 : txt top = txt (firstn (length top) l')).
  { unfold txt in *. rewrite map_app in E. rewrite <- (firstn_skipn (length top) l'), map_app in E. apply (f_equal (firstn (length top))) in E.
    rewrite !firstn_app, !map_length, firstn_length in E. replace (length top - Nat.min (length top) (length l'))%nat with 0%nat in E by lia. rewrite Nat.sub_diag in E. cbn [firstn] in E. rewrite !app_nil_r in E.
    rewrite firstn_all2 in E by (rewrite map_length; lia). rewrite firstn_all2 in E by (rewrite map_length, firstn_length; lia). exact E. }
  split; [exists d; rewrite <- (wk_txt d _ _ E1); exact W|]. eapply IH; [|exact IV].
  unfold txt in *. rewrite map_app in E. rewrite <- (firstn_skipn (length top) l') in E. rewrite map_app, E1 in E. apply app_inv_head in E. exact E.
Qed.
Lemma txt_or_space r t : txt (or_space r t) = txt r.
Proof. destruct r; reflexivity. Qed.

Definition T outer own l := exists f, expand f outer own l <> UB.
Lemma T_args outer args : (forall a, In a args -> T outer [] a) -> exists f, forall a, In a args -> expand f outer [] a <> UB.
Proof.
  induction args as [|a args IH]; intros H; [exists 0%nat; intros a []|]. destruct IH as [f1 F1]; [intros x Hx; apply H; right; exact Hx|]. destruct (H a (or_introl eq_refl)) as [f2 F2].
  exists (f1 + f2)%nat. intros x [<-|Hx].
  - rewrite (expand_mono f2 (f1 + f2) outer [] a ltac:(lia) F2). exact F2.
  - rewrite (expand_mono f1 (f1 + f2) outer [] x ltac:(lia) (F1 x Hx)). apply F1. exact Hx.
Qed.

Theorem expand_term : forall a outer own l, (length K - length outer = a)%nat -> state_ok outer own l -> T outer own l.
Proof.
  induction a as [a IHa] using (well_founded_induction Wf_nat.lt_wf). intros outer own l HA.
  remember (meas (S a) own l) as v eqn:EV. assert (AC : Acc lex v) by (apply (lex_wf (S a)); subst v; apply vec_length). revert own l EV.
  induction AC as [v _ IHv]. intros own l -> OK.
  assert (IHl : forall own' l', state_ok outer own' l' -> lex (meas (S a) own' l') (meas (S a) own l) -> T outer own' l') by (intros own' l' OK' LX; eapply IHv; [exact LX|reflexivity|exact OK']). clear IHv.
  destruct l as [|t r]; [exists 1%nat; discriminate|].
  pose proof (state_size _ _ _ OK) as SZ. assert (OWN : (length own < S a)%nat) by lia. pose proof OK as [K1 K2 K3 K4 K5].
  assert (B : forall x, In x (stops own) -> (x <= length r)%nat) by (intros x Hx; specialize (K4 x Hx); cbn [length] in K4; lia).
  (* the token is passed on *)
  assert (TR : T outer (pop own (length r)) r).
  { destruct (pop_spec own (length r) K3 B) as [p [E [P1 P2]]]. apply IHl.
    - rewrite E in OK. eapply state_drop; [exact OK|exact P2|]. apply inv_pop, (inv_step _ t); assumption.
    - rewrite meas_pop by (try assumption; lia). destruct (meas_drop (S a) [] own (t :: r) r) as [M _]; cbn [app length]; try assumption; try lia; try (intros x []). }
  assert (EM : exists f, forall u : mtok, (do o <- expand f outer (pop own (length r)) r; Ok (u :: o)) <> UB).
  { destruct TR as [f F]. exists f. intros u. destruct (expand f outer _ r); cbn [bind]; congruence. }
  (* a macro is replaced *)
  assert (AF : locked outer own (mtext t) = false -> In (mtext t) K -> forall p o b r2, own = p ++ o -> (forall x, In x (stops p) -> (length r2 < x)%nat) -> (forall x, In x (stops o) -> (x <= length r2)%nat) ->
     inv o r2 -> (length r2 < length (t :: r))%nat -> bal b -> exists f, after f outer t b o r2 <> UB).
  { intros LK KN p o b r2 E Q1 Q2 Q3 Q4 BB. destruct (meas_drop (S a) p o (t :: r) r2) as [M1 M2]; try assumption; [rewrite <- E; lia|]. rewrite <- E in M1, M2.
    assert (DO : down (stops o)) by (rewrite E, stops_app in K3; apply down_app in K3; exact K3).
    assert (LO : (length o < S a)%nat) by (rewrite E, app_length in OWN; lia).
    unfold MacProofs.after. destruct b as [|x b].
    - assert (OK2 : state_ok outer (pop o (length r2)) (or_space r2 t)).
      { destruct (pop_spec o (length r2) DO Q2) as [p2 [E2 [_ P2]]]. rewrite E, E2, app_assoc in OK. eapply state_drop; [exact OK|rewrite or_space_length; exact P2|].
        eapply inv_txt; [symmetry; apply txt_or_space|]. apply inv_pop, Q3. }
      destruct (IHl _ _ OK2) as [f F]; [|exists f; exact F]. unfold meas at 1. rewrite or_space_length. fold (meas (S a) (pop o (length r2)) r2). rewrite meas_pop by assumption. exact M1.
    - assert (OK2 : state_ok outer ((mtext t, length r2) :: o) (align x t :: b ++ r2)).
      { rewrite E in K1, K2. unfold names in *. rewrite map_app in *. constructor.
        - cbn [names map fst app]. constructor.
          + intros IN. assert (LT : locked outer own (mtext t) = true); [|congruence]. unfold locked. apply existsb_exists. exists (mtext t). split; [|apply String.eqb_refl].
            rewrite E. unfold names. rewrite map_app, <- app_assoc. apply in_or_app. right. exact IN.
          + rewrite <- app_assoc in K1. apply NoDup_drop in K1. exact K1.
        - intros y [<-|Hy]; [exact KN|]. apply K2. rewrite <- app_assoc. apply in_or_app. right. exact Hy.
        - cbn [stops map snd]. apply down_push; [exact Q2|exact DO].
        - cbn [length]. rewrite app_length. intros y [<-|Hy]; [cbn [snd]; lia|]. specialize (Q2 y Hy). lia.
        - exists (align x t :: b), r2. repeat split; auto. exists 0%nat. rewrite <- (BB 0%nat). apply wk_txt. reflexivity. }
      destruct (IHl _ _ OK2) as [f F]; [|exists f; exact F]. apply (M2 (mtext t) (align x t :: b)). }
  destruct EM as [f0 EM].
  destruct (noexp t) eqn:NX; [exists (S f0); rewrite expand_cons; cbv zeta; rewrite NX; apply EM|].
  destruct (find_mac t) as [m|] eqn:FM; [|exists (S f0); rewrite expand_cons; cbv zeta; rewrite NX, FM; apply EM].
  destruct (locked outer own (mtext t)) eqn:LK; [exists (S f0); rewrite expand_cons; cbv zeta; rewrite NX, FM, LK; apply EM|].
  destruct (find_mac_ok tbl Ht _ _ FM) as [NT [BB [PP LU]]]. assert (KN : In (mtext t) K) by (apply nodup_In; eapply lookup_in; exact LU). specialize (AF eq_refl KN).
  destruct (mobj m) eqn:OB.
  - pose proof (insert_total (mbody m) []) as IT. destruct (insert_objlike paste [] (mbody m)) as [b| |] eqn:IO; [|congruence|exists 1%nat; rewrite expand_cons; cbv zeta; rewrite NX, FM, LK, OB, IO; discriminate].
    destruct (AF [] own b r eq_refl) as [f F]; auto; [intros x []|eapply inv_step; eassumption| |].
    { apply insert_objlike_weq in IO; [|exact Hp]. cbn [rev app] in IO. eapply bal_weq; [apply weq_sym, IO|exact BB]. }
    exists (S f). rewrite expand_cons. cbv zeta. rewrite NX, FM, LK, OB, IO. exact F.
  - destruct (eqh r "(") eqn:EH; [|exists (S f0); rewrite expand_cons; cbv zeta; rewrite NX, FM, LK, OB, EH; apply EM].
    destruct r as [|p r]; [discriminate|]. cbn [eqh] in EH.
    destruct (pop_spec own (length (p :: r)) K3 B) as [p1 [E1 [P1 P2]]]. set (own1 := pop own (length (p :: r))) in *.
    assert (IV1 : inv own1 (p :: r)) by (apply inv_pop, (inv_step _ t); assumption).
    assert (B1 : forall x, In x (stops own1) -> (x <= length r)%nat) by (intros x Hx; specialize (P2 x Hx); cbn [length] in P2; lia).
    assert (IV1' : inv own1 r) by (eapply inv_step; eassumption).
    assert (D1 : down (stops own1)) by (rewrite E1, stops_app in K3; apply down_app in K3; exact K3).
    pose proof (prepare_total outer r own1 0) as PT. destruct (prepare outer own1 0 r) as [[[own2 pre] r3]| |] eqn:PR; [|congruence|exists 1%nat; rewrite expand_cons; cbv zeta; rewrite NX, FM, LK, OB; cbn [eqh tl]; rewrite EH; fold own1; rewrite PR; discriminate].
    pose proof (read_args_total (mva m) (length (mparams m)) true pre) as RT.
    destruct (read_args strict (mva m) (length (mparams m)) true pre) as [[args om]| |] eqn:RA; [|congruence|exists 1%nat; rewrite expand_cons; cbv zeta; rewrite NX, FM, LK, OB; cbn [eqh tl]; rewrite EH; fold own1; rewrite PR; cbn [bind]; rewrite RA; discriminate].
    destruct (read_args_bal _ _ _ _ _ _ _ RA) as [BA [_ LA]].
    destruct (prepare_locks _ _ _ _ _ _ _ D1 B1 IV1' PR) as [p2 [E2 [Q1 [Q2 [Q3 Q4]]]]].
    destruct (prepare_spec _ _ _ _ _ _ _ _ PR) as [l0 [q [ER [Q [W TX]]]]].
    assert (LP : length pre = S (length l0)) by (apply (f_equal (@length _)) in TX; unfold txt in TX; rewrite !map_length, app_length in TX; cbn [length] in TX; lia).
    assert (LR : length r = (length l0 + S (length r3))%nat) by (rewrite ER, app_length; reflexivity).
    assert (E3 : own = (p1 ++ p2) ++ own2) by (rewrite <- app_assoc, <- E2; exact E1).
    (* the arguments *)
    assert (TA : forall x, In x ([] :: args) -> T (names own2 ++ outer) [] x).
    { intros x Hx. assert (LX : (length x < length (p :: r))%nat). { destruct Hx as [<-|Hx]; [cbn [length]; lia|]. specialize (LA x Hx). cbn [length]. lia. }
      assert (OKX : state_ok (names own2 ++ outer) [] x).
      { rewrite E3 in K1, K2. unfold names in *. rewrite map_app in *. constructor; cbn [stops names map app]; try exact Logic.I.
        - rewrite <- app_assoc in K1. apply NoDup_drop in K1. exact K1.
        - intros y Hy. apply K2. rewrite <- app_assoc. apply in_or_app. right. exact Hy.
        - constructor.
        - intros y []. }
      destruct own2 as [|[m2 s2] own2'].
      - cbn [names map app] in *. apply IHl; [exact OKX|].
        assert (LT : (length x < match rev (stops own) with [] => length (t :: p :: r) | s :: _ => s end)%nat).
        { destruct (rev (stops own)) as [|s y] eqn:RS; [cbn [length] in *; lia|]. assert (INs : In s (stops own)) by (apply in_rev; rewrite RS; left; reflexivity).
          destruct own1 as [|[m1 s1] own1'] eqn:O1.
          - rewrite E1, app_nil_r in INs. rewrite (P1 s INs). exact LX.
          - exfalso. destruct IV1 as [top [low [ET [LL [[d WT] _]]]]]. specialize (P2 s1 (or_introl eq_refl)).
            destruct top as [|p' top]; cbn [app] in ET; [subst low; lia|]. injection ET as <- ET. rewrite wk_cons, EH in WT.
            rewrite ET in ER. pose proof (group_inside l0 q r3 top low d (eq_sym ER) W WT) as GI.
            destruct p2 as [|p2h p2]; [discriminate|]. cbn [app] in E2. injection E2 as <- _. specialize (Q1 s1 (or_introl eq_refl)). lia. }
        unfold meas at 1. cbn [stops map rev].
        pose proof (vec_lex [] (S a) 0 (rev (stops own)) [] (length (t :: p :: r)) (length x)) as V. cbn [app last length] in V. apply V; [lia|exact LT|lia].
      - eapply IHa; [|reflexivity|exact OKX]. pose proof (state_size _ _ _ OKX) as SX. unfold names in *. cbn [map fst length] in *. rewrite app_length in *. cbn [length] in *. lia. }
    destruct (T_args _ _ TA) as [f1 F1].
    pose proof (subst_total paste Hpt (expand f1 (names own2 ++ outer) []) (mkctx m args om) F1 (S (length (mbody m))) [] (mbody m) ltac:(lia)) as ST.
    assert (STEP : forall f, (f1 <= f)%nat -> expand (S f) outer own (t :: p :: r) =
       (do b <- subst paste (expand f1 (names own2 ++ outer) []) (mkctx m args om) (S (length (mbody m))) [] (mbody m); after f outer t (filter (fun x => negb (is_pmark x)) b) own2 r3)).
    { intros f LF. rewrite expand_cons. cbv zeta. rewrite NX, FM, LK, OB. cbn [eqh tl]. rewrite EH. fold own1. rewrite PR. cbn [bind]. rewrite RA. cbn [bind fst snd].
      rewrite (subst_mono paste (expand f1 (names own2 ++ outer) []) (expand f (names own2 ++ outer) []) (mkctx m args om)); [reflexivity| |exact ST]. intros x. apply expand_mono. exact LF. }
    destruct (subst paste (expand f1 (names own2 ++ outer) []) (mkctx m args om) (S (length (mbody m))) [] (mbody m)) as [b| |] eqn:SB; [|congruence|exists (S f1); rewrite STEP by lia; discriminate].
    destruct (AF (p1 ++ p2) own2 (filter (fun x => negb (is_pmark x)) b) r3 E3) as [f F]; auto.
    + intros x Hx. rewrite stops_app in Hx. apply in_app_or in Hx. destruct Hx as [Hx|Hx]; [rewrite (P1 x Hx); cbn [length]; lia|auto].
    + cbn [length]. lia.
    + eapply bal_weq; [apply weq_sym, weq_filter|]. assert (HE : forall a x, bal a -> expand f1 (names own2 ++ outer) [] a = Ok x -> bal x) by (intros a0 x B0 G; apply expand_weq in G; [|assumption|assumption]; eapply bal_weq; [apply weq_sym, G|exact B0]).
      apply (subst_weq paste Hp _ (mkctx m args om) BA PP HE) in SB. cbn [rev app] in SB. eapply bal_weq; [apply weq_sym, SB|exact BB].
    + exists (S (f1 + f)). rewrite STEP by lia. cbn [bind]. rewrite (after_mono f (f1 + f)); [exact F| |exact F]. intros; apply expand_mono; lia.
Qed.

(** From the outermost level. *)
Theorem expansion_terminates l : exists f r, r <> UB /\ forall f', (f <= f')%nat -> expand f' [] [] l = r.
Proof.
  destruct (expand_term _ [] [] l eq_refl) as [f F].
  - constructor; cbn [names stops map app]; try exact Logic.I; [constructor|intros x []|constructor|intros x []].
  - exists f, (expand f [] [] l). split; [exact F|]. intros f' L. apply expand_mono; [exact L|exact F].
Qed.
End Term.
