(** C12: object-like macros are replaced as the standard says. *)
From Coq Require Import Ascii String ZArith List Bool Lia.
From Verif Require Import Base PpSpec MacSpec MacModel MacProofs MacTerm.
Import ListNotations.
Local Open Scope string_scope.
Local Open Scope list_scope.

(** A token as the specification sees it. *)
Definition abs (t : mtok) : string * bool := (mtext t, noexp t || negb (is_id t)).
Definition abs_tbl (tbl : mtable) : list (string * list (string * bool)) := map (fun e => (fst e, map abs (mbody (snd e)))) tbl.
Definition obj_tbl (tbl : mtable) : Prop :=
  forall s m, lookup s tbl = Some m -> mobj m = true /\ forall t, In t (mbody m) -> eqt t "##" = false.

Lemma lookup_abs tbl s : lookup s (abs_tbl tbl) = match lookup s tbl with Some m => Some (map abs (mbody m)) | None => None end.
Proof.
  unfold lookup, abs_tbl. induction tbl as [|[k m] tbl IH]; [reflexivity|]. cbn [map find fst snd]. destruct (String.eqb k s); [reflexivity|exact IH].
Qed.
Section Obj.
Variable paste : mtok -> mtok -> outcome mtok.
Variable strict : bool.
Variable tbl : mtable.
Hypothesis Ho : obj_tbl tbl.
Notation expand := (expand paste strict tbl).
Notation K := (K tbl).

Lemma insert_plain : forall l acc, (forall t, In t l -> eqt t "##" = false) -> insert_objlike paste acc l = Ok (rev acc ++ l).
Proof.
  induction l as [|t l IH]; intros acc H; cbn [insert_objlike]; [rewrite app_nil_r; reflexivity|]. rewrite (H t (or_introl eq_refl)). rewrite IH by (intros x Hx; apply H; right; exact Hx). cbn [rev]. rewrite <- app_assoc. reflexivity.
Qed.
Definition rep1 (n : nat) (H : list string) (t : string * bool) : list (string * bool) :=
  if snd t then [t]
  else match lookup (fst t) (abs_tbl tbl) with
       | None => [t]
       | Some body => if existsb (String.eqb (fst t)) H then [(fst t, true)] else replace (abs_tbl tbl) n (fst t :: H) body
       end.
Lemma replace_cons n H t l : replace (abs_tbl tbl) (S n) H (t :: l) = rep1 n H t ++ replace (abs_tbl tbl) (S n) H l.
Proof. reflexivity. Qed.
Lemma pop_id own n : (forall x, In x (stops own) -> (x < n)%nat) -> pop own n = own.
Proof.
  destruct own as [|[m s] o]; [reflexivity|]. intros H. cbn [pop]. specialize (H s (or_introl eq_refl)). destruct (Nat.eqb_spec s n); [lia|reflexivity].
Qed.
Lemma split_abs l : forall l1 r1, map abs l = map abs (l1 ++ r1) -> exists a b, l = a ++ b /\ map abs a = map abs l1 /\ map abs b = map abs r1.
Proof.
  intros l1. revert l. induction l1 as [|t l1 IH]; intros l r1 E; [exists [], l; auto|]. destruct l as [|u l]; [discriminate|]. cbn [app map] in E. injection E as E0 E1 E2.
  destruct (IH _ _ E2) as [a [b [-> [A B]]]]. exists (u :: a), b. repeat split; auto. cbn [map]. unfold abs at 1 3. congruence.
Qed.
Lemma abs_or_space r t : map abs (or_space r t) = map abs r.
Proof. destruct r; reflexivity. Qed.
Lemma abs_len (l l' : list mtok) : map abs l = map abs l' -> length l = length l'.
Proof. intros H. apply (f_equal (@length _)) in H. rewrite !map_length in H. exact H. Qed.

Lemma obj_run : forall a outer n l own rest,
  (length l <= n)%nat -> NoDup (names own ++ outer) -> incl (names own ++ outer) K -> (length K - length (names own ++ outer) = a)%nat ->
  (forall x, In x (stops own) -> (x <= length rest)%nat) -> (l = [] -> forall x, In x (stops own) -> (x < length rest)%nat) ->
  exists k o rest', map abs rest' = map abs rest /\ map abs o = replace (abs_tbl tbl) (S a) (names own ++ outer) (map abs l) /\
    forall f, expand (k + f) outer own (l ++ rest) = (do x <- expand f outer (pop own (length rest)) rest'; Ok (o ++ x)).
Proof.
  induction a as [a IHa] using (well_founded_induction Wf_nat.lt_wf). intros outer. induction n as [|n IHn]; intros l own rest LN ND IN HA HS HE;
    (destruct l as [|t l]; [exists 0%nat, [], rest; repeat split; intros f; cbn [Nat.add app]; rewrite pop_id by (apply HE; reflexivity); destruct (expand f outer own rest); reflexivity|]); cbn [length] in LN; [lia|].
  (* going on with what follows the token *)
  assert (NX : forall l2 rest2, map abs l2 = map abs l -> map abs rest2 = map abs rest ->
     exists k o rest', map abs rest' = map abs rest /\ map abs o = replace (abs_tbl tbl) (S a) (names own ++ outer) (map abs l) /\
       forall f, expand (k + f) outer (pop own (length (l ++ rest))) (l2 ++ rest2) = (do x <- expand f outer (pop own (length rest)) rest'; Ok (o ++ x))).
  { intros l2 rest2 E1 E2. pose proof (abs_len _ _ E1) as L1. pose proof (abs_len _ _ E2) as L2. destruct l as [|u l].
    - destruct l2; [|discriminate]. exists 0%nat, [], rest2. repeat split; auto. intros f. cbn [app Nat.add]. destruct (expand f outer (pop own (length rest)) rest2); reflexivity.
    - rewrite pop_id by (intros x Hx; specialize (HS x Hx); rewrite app_length; cbn [length]; lia).
      destruct (IHn l2 own rest2) as [k [o [rest' [R1 [R2 R3]]]]]; auto; try (rewrite L1; cbn [length] in *; lia); try (rewrite L2; exact HS); try (intros ->; discriminate).
      exists k, o, rest'. rewrite <- L2, <- E1, <- E2. repeat split; auto. }
  cbn [map]. rewrite replace_cons.
  assert (EM : forall u, True -> map abs [u] = rep1 a (names own ++ outer) (abs t) ->
     (forall f, expand (S f) outer own (t :: l ++ rest) = (do o <- expand f outer (pop own (length (l ++ rest))) (l ++ rest); Ok (u :: o))) ->
     exists k o rest', map abs rest' = map abs rest /\ map abs o = rep1 a (names own ++ outer) (abs t) ++ replace (abs_tbl tbl) (S a) (names own ++ outer) (map abs l) /\
      forall f, expand (k + f) outer own ((t :: l) ++ rest) = (do x <- expand f outer (pop own (length rest)) rest'; Ok (o ++ x))).
  { intros u _ EU ST. destruct (NX l rest eq_refl eq_refl) as [k [o [rest' [R1 [R2 R3]]]]]. exists (S k), (u :: o), rest'. split; [exact R1|]. split; [rewrite <- EU, <- R2; reflexivity|].
    intros f. cbn [Nat.add app]. rewrite ST, R3. destruct (expand f outer _ rest'); reflexivity. }
  pose proof (fun u => EM u Logic.I) as EM0; clear EM; rename EM0 into EM. destruct (noexp t) eqn:NE.
  { apply (EM t); [cbn [map]; unfold rep1, abs; rewrite NE; reflexivity|]. intros f. rewrite expand_cons. cbv zeta. rewrite NE. reflexivity. }
  destruct (is_id t) eqn:ID.
  2: { apply (EM t); [cbn [map]; unfold rep1, abs; rewrite NE, ID; reflexivity|]. intros f. rewrite expand_cons. cbv zeta. rewrite NE. unfold find_mac. rewrite ID. reflexivity. }
  destruct (lookup (mtext t) tbl) as [m|] eqn:LU.
  2: { apply (EM t); [cbn [map]; unfold rep1, abs; rewrite NE, ID; cbn [negb orb snd fst map]; rewrite lookup_abs, LU; reflexivity|]. intros f. rewrite expand_cons. cbv zeta. rewrite NE. unfold find_mac. rewrite ID, LU. reflexivity. }
  destruct (locked outer own (mtext t)) eqn:LK.
  { apply (EM (paint t)).
    - cbn [map]. unfold rep1, abs. rewrite NE, ID. cbn [negb orb snd fst map paint noexp mtext]. rewrite lookup_abs, LU. unfold locked in LK. rewrite LK. reflexivity.
    - intros f. rewrite expand_cons. cbv zeta. rewrite NE. unfold find_mac. rewrite ID, LU, LK. reflexivity. }
  clear EM. destruct (Ho _ _ LU) as [OB NP].
  assert (KN : In (mtext t) K) by (apply nodup_In; eapply lookup_in; exact LU).
  assert (NI : ~ In (mtext t) (names own ++ outer)).
  { intros H. assert (locked outer own (mtext t) = true); [|congruence]. apply existsb_exists. exists (mtext t). split; [exact H|apply String.eqb_refl]. }
  assert (ND2 : NoDup (mtext t :: names own ++ outer)) by (constructor; assumption).
  assert (IN2 : incl (mtext t :: names own ++ outer) K) by (intros y [<-|Hy]; auto).
  pose proof (NoDup_incl_length ND2 IN2) as SZ. cbn [length] in SZ.
  assert (STEP : forall f, expand (S f) outer own (t :: l ++ rest) = after paste strict tbl f outer t (mbody m) own (l ++ rest)).
  { intros f. rewrite expand_cons. cbv zeta. rewrite NE. unfold find_mac. rewrite ID, LU, LK, OB, insert_plain by exact NP. reflexivity. }
  assert (R1E : rep1 a (names own ++ outer) (abs t) = replace (abs_tbl tbl) a (mtext t :: names own ++ outer) (map abs (mbody m))).
  { unfold rep1, abs. rewrite NE, ID. cbn [negb orb snd fst]. rewrite lookup_abs, LU. unfold locked in LK. rewrite LK. reflexivity. }
  rewrite R1E. destruct (mbody m) as [|x b] eqn:BD.
  - destruct (split_abs (or_space (l ++ rest) t) l rest (abs_or_space _ _)) as [l2 [rest2 [E1 [E2 E3]]]].
    destruct (NX l2 rest2 E2 E3) as [k [o [rest' [Q1 [Q2 Q3]]]]]. exists (S k), o, rest'. split; [exact Q1|]. split.
    + rewrite Q2. destruct a; reflexivity.
    + intros f. cbn [Nat.add app]. rewrite STEP. unfold after. rewrite E1. apply Q3.
  - destruct (IHa (a - 1)%nat ltac:(lia) outer (S (length b)) (align x t :: b) ((mtext t, length (l ++ rest)) :: own) (l ++ rest)) as [k [o [rest' [Q1 [Q2 Q3]]]]].
    + reflexivity.
    + exact ND2.
    + exact IN2.
    + change (length K - S (length (names own ++ outer)) = a - 1)%nat. lia.
    + intros y [<-|Hy]; [cbn [snd]; lia|]. specialize (HS y Hy). rewrite app_length. lia.
    + discriminate.
    + destruct (split_abs rest' l rest Q1) as [l2 [rest2 [E1 [E2 E3]]]].
      destruct (NX l2 rest2 E2 E3) as [k2 [o2 [rest3 [Q4 [Q5 Q6]]]]]. exists (S (k + k2)), (o ++ o2), rest3. split; [exact Q4|]. split.
      * rewrite map_app, Q2, Q5. replace (S (a - 1)) with a by lia. reflexivity.
      * intros f. cbn [Nat.add app]. rewrite STEP. unfold after. change (align x t :: b ++ l ++ rest) with ((align x t :: b) ++ l ++ rest). rewrite <- Nat.add_assoc, Q3.
        cbn [pop]. rewrite Nat.eqb_refl. rewrite E1, Q6. destruct (expand f outer _ rest3); cbn [bind]; [rewrite app_assoc|..]; reflexivity.
Qed.
Theorem obj_spec l : exists f o, (forall f', (f <= f')%nat -> expand f' [] [] l = Ok o) /\
  map abs o = replace (abs_tbl tbl) (S (length (nodup string_dec (map fst tbl)))) [] (map abs l).
Proof.
  pose proof (obj_run (length K) [] (length l) l [] [] (le_n _) (NoDup_nil _) (fun x (H : In x []) => match H with end) (Nat.sub_0_r _) (fun x (H : In x []) => match H with end) (fun _ x (H : In x []) => match H with end)) as RUN.
  destruct RUN as [k [o [rest' [Q1 [Q2 Q3]]]]].
  destruct rest'; [|discriminate]. exists (k + 1)%nat, o. split; [|exact Q2]. intros f' L.
  assert (E : expand (k + 1) [] [] l = Ok o) by (rewrite <- (app_nil_r l), Q3; cbn [pop bind]; cbn; rewrite app_nil_r; reflexivity).
  rewrite <- E. apply expand_mono; [exact L|]. rewrite E. discriminate.
Qed.
End Obj.
