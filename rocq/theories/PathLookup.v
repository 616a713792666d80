(** Proofs about include lookups. *)
From Coq Require Import ZArith List Bool Lia Arith.
From Verif Require Import Base PathSpec PathModel PathProofs.
Import ListNotations.
Local Open Scope Z_scope.

Section Lookup.
Variable exists_ : path -> bool.
Variable dirname : path -> path.
Variable dirs : list path.
Notation lookup := (lookup exists_ dirname dirs).
Notation answers := (answers exists_ dirname dirs).
Notation answer := (answer exists_ dirname dirs).
Notation do_lookup := (do_lookup exists_ dirname dirs).
Notation do_lookups := (do_lookups exists_ dirname dirs).
Notation search3 := (search3 exists_ dirs).

Lemma search_loop_ok name : forall l i, search_loop exists_ i l name = first_in exists_ (fun _ => true) i l name.
Proof.
  induction l as [|d r IH]; intros i; cbn [search_loop first_in]; auto. rewrite andb_true_r.
  destruct (exists_ (inside d name)); cbn [negb]; auto.
Qed.
Lemma next_loop_ok name cur : forall l i, next_loop exists_ i l name cur =
  first_in exists_ (fun p => negb (if path_eq_dec p cur then true else false)) i l name.
Proof.
  induction l as [|d r IH]; intros i; cbn [next_loop first_in]; auto.
  destruct (exists_ (inside d name) && _); auto.
Qed.

(** The cache holds what the search finds. *)
Definition cache_ok (st : ist) : Prop :=
  forall n p, In (n, p) (cache st) -> absolute n = false /\ exists i, first_in exists_ (fun _ => true) 0 dirs n = Some (p, i).
Lemma assoc_in {A} (l : list (path * A)) p v : assoc l p = Some v -> In (p, v) l.
Proof.
  induction l as [|[q w] r IH]; cbn [assoc]; [discriminate|]. destruct (path_eq_dec q p) as [->|]; intros H.
  - inversion H; subst. now left.
  - right. auto.
Qed.
Lemma in_assoc {A} (l : list (path * A)) p v : In (p, v) l -> exists w, assoc l p = Some w.
Proof.
  induction l as [|[q w] r IH]; intros H; [destruct H|]. cbn [assoc]. destruct (path_eq_dec q p); [eauto|].
  destruct H as [H|H]; [congruence|auto].
Qed.
Lemma where_in f p v : where_found f p = Some v -> In (p, v) f.
Proof.
  induction f as [|[q w] r IH]; cbn [where_found]; [discriminate|]. destruct (path_eq_dec q p) as [->|]; intros H.
  - inversion H; subst. now left.
  - right. auto.
Qed.
Lemma in_where f p v : In (p, v) f -> exists w, where_found f p = Some w.
Proof.
  induction f as [|[q w] r IH]; intros H; [destruct H|]. cbn [where_found]. destruct (path_eq_dec q p); [eauto|].
  destruct H as [H|H]; [congruence|auto].
Qed.

(** A lookup through the list finds the right path; the number may be lost. *)
Lemma search3_ok st name : name <> [] -> cache_ok st ->
  let q := search3 st name in
  cache_ok (snd q) /\ files (snd q) = files st /\
  match from_list exists_ dirs name with
  | Some (p, i) =>
      (fst q = Some (p, i) /\
       (cache (snd q) = cache st /\ absolute name = true \/ cache (snd q) = (name, p) :: cache st)) \/
      (fst q = Some (p, -1) /\ snd q = st /\ In (name, p) (cache st))
  | None => fst q = None /\ snd q = st
  end.
Proof.
  intros N CO. unfold search3, PathModel.search3, from_list. destruct name as [|c t]; [congruence|].
  cbn [absolute]. destruct (c =? slash) eqn:CS; cbn [fst snd].
  - split; [auto|]. split; [reflexivity|]. left. auto.
  - destruct (assoc (cache st) (c :: t)) as [p|] eqn:AS.
    + apply assoc_in in AS. destruct (CO _ _ AS) as [_ (i & F)]. rewrite F. cbn [fst snd]. split; [auto|]. split; [reflexivity|]. right. auto.
    + rewrite search_loop_ok. destruct (first_in exists_ (fun _ => true) 0 dirs (c :: t)) as [[p i]|] eqn:F; cbn [fst snd].
      * split; [|split; [reflexivity|left; auto]]. intros n q [H|H]; [|auto]. inversion H; subst.
        split; [cbn [absolute]; exact CS|eauto].
      * auto.
Qed.

(** ** Paths are right whatever was cached *)
Definition path_of (a : option (path * Z)) : option path := match a with Some p => Some (fst p) | None => None end.
Lemma add_file_cache st p i : cache (add_input_file st p i) = cache st.
Proof. unfold add_input_file. now destruct (assoc (files st) p). Qed.
Lemma cache_ok_add st p i : cache_ok st -> cache_ok (add_input_file st p i).
Proof. unfold cache_ok. now rewrite add_file_cache. Qed.

Lemma search3_path st name : name <> [] -> cache_ok st ->
  path_of (fst (search3 st name)) = path_of (from_list exists_ dirs name) /\ cache_ok (snd (search3 st name)).
Proof.
  intros N CO. destruct (search3_ok st name N CO) as (A & _ & B). split; auto.
  destruct (from_list exists_ dirs name) as [[p i]|]; [destruct B as [[-> _]|[-> _]]; auto|destruct B as [-> _]; auto].
Qed.
Lemma search2_path st n q c : n <> [] -> cache_ok st ->
  path_of (fst (search2 exists_ dirname dirs st n q c)) = path_of (lookup n q c) /\
  cache_ok (snd (search2 exists_ dirname dirs st n q c)).
Proof.
  intros N CO. unfold search2, lookup, PathSpec.lookup. destruct (negb (absolute n) && q && exists_ (inside (dirname c) n)); auto.
  apply search3_path; auto.
Qed.

Theorem paths_ok l : forall st f, cache_ok st -> Forall not_next l -> do_lookups st l = fst (answers f l).
Proof.
  induction l as [|e r IH]; intros st f CO NN; cbn [PathModel.do_lookups PathSpec.answers]; [reflexivity|].
  inversion NN as [|? ? N1 NR]; subst. cbn [fst].
  assert (K : fst (do_lookup st e) = path_of (answer f e) /\ cache_ok (snd (do_lookup st e))).
  { destruct e as [n q c|n q c|n|]; cbn [not_next] in N1; [| | |destruct N1]; cbn [PathModel.do_lookup PathSpec.answer].
    - destruct (search2_path st n q c N1 CO) as [A B]. unfold lookup in A.
      destruct (search2 exists_ dirname dirs st n q c) as [[[p i]|] st']; cbn [fst snd path_of] in *; split; auto using cache_ok_add.
    - destruct (search2_path st n q c N1 CO) as [A B]. unfold lookup in A.
      destruct (search2 exists_ dirname dirs st n q c) as [[[p i]|] st']; cbn [fst snd path_of] in *; auto.
    - unfold cli. destruct (exists_ n); cbn [fst snd path_of]; auto using cache_ok_add.
      destruct (search3_path st n N1 CO) as [A B].
      destruct (search3 st n) as [[[p i]|] st']; cbn [fst snd path_of] in *; split; auto using cache_ok_add. }
  destruct K as [K1 K2]. f_equal; [exact K1|]. apply IH; auto.
Qed.

(** ** #include_next *)
Definition tracks (st : ist) (f : found_t) : Prop :=
  cache_ok st /\
  (forall n p, In (n, p) (cache st) -> exists i, In (p, i) (files st)) /\
  (forall p i, In (p, i) (files st) -> In (p, i) f) /\
  (forall p i, In (p, i) f -> exists j, In (p, j) (files st)).

Lemma answers_mono l : forall f x, In x f -> In x (snd (answers f l)).
Proof.
  induction l as [|e r IH]; intros f x H; cbn [PathSpec.answers snd]; auto. apply IH.
  destruct (answer f e); auto. destruct (opens e); auto. now right.
Qed.

Lemma add_tracks st f p i : cache_ok st ->
  (forall n q, In (n, q) (cache st) -> q = p \/ exists i, In (q, i) (files st)) ->
  (forall q j, In (q, j) (files st) -> In (q, j) f) ->
  (forall q j, In (q, j) f -> exists k, In (q, k) (files st)) ->
  forall i', i' = i \/ (exists k, In (p, k) (files st)) ->
  tracks (add_input_file st p i') ((p, i) :: f).
Proof.
  intros CO C1 C2 C3 i' HI. unfold add_input_file. destruct (assoc (files st) p) as [k|] eqn:AS.
  - apply assoc_in in AS. split; [exact CO|]. split; [|split].
    + intros n q H. destruct (C1 n q H) as [->|H']; eauto.
    + intros q j H. right. auto.
    + intros q j [H|H]; [inversion H; subst; eauto|eauto].
  - assert (E : i' = i).
    { destruct HI as [->|(k & H)]; auto. apply in_assoc in H. destruct H as [w H]. congruence. }
    subst i'. split; [exact CO|]. cbn [cache files]. split; [|split].
    + intros n q H. destruct (C1 n q H) as [->|(j & H')]; [exists i; now left|exists j; now right].
    + intros q j [H|H]; [left; exact H|right; auto].
    + intros q j [H|H]; [exists j; left; exact H|]. destruct (C3 q j H) as [k K]. exists k. now right.
Qed.

Theorem directives_ok l : forall st f, tracks st f -> Forall directive l -> one_way (snd (answers f l)) ->
  do_lookups st l = fst (answers f l).
Proof.
  induction l as [|e r IH]; intros st f (CO & T1 & T2 & T3) DR OW; [reflexivity|].
  cbn [PathModel.do_lookups]. cbn [PathSpec.answers fst snd] in *.
  inversion DR as [|? ? D1 DR']; subst.
  set (f' := match answer f e with Some p => if opens e then p :: f else f | None => f end) in *.
  assert (OWF : one_way f).
  { intros p i j HI HJ. apply (OW p); apply answers_mono; unfold f';
      (destruct (answer f e); [destruct (opens e); [right|]|]; assumption). }
  assert (K : fst (do_lookup st e) = path_of (answer f e) /\ tracks (snd (do_lookup st e)) f').
  { unfold f'. clear f' OW IH. destruct e as [n q c| | |n c]; cbn [directive] in D1; try (exfalso; exact D1); cbn [opens].
    - cbn [PathModel.do_lookup PathSpec.answer]. unfold search2, PathSpec.lookup.
      destruct (negb (absolute n) && q && exists_ (inside (dirname c) n)); cbn [fst snd path_of].
      + split; [reflexivity|]. apply add_tracks; auto. intros n' p' H. right. eauto.
      + destruct (search3_ok st n D1 CO) as (A & B & C).
        destruct (from_list exists_ dirs n) as [[p i]|]; [destruct C as [[C1 C2]|(C1 & C2 & C3)]|destruct C as [C1 C2]].
        * destruct (search3 st n) as [o st']. cbn [fst snd] in *. subst o. cbn [fst snd path_of]. split; [reflexivity|].
          apply add_tracks; auto; rewrite ?B; auto. destruct C2 as [[-> _]| ->].
          -- intros n' p' H. right. eauto.
          -- intros n' p' [H|H]; [inversion H; subst; auto|]. right. eauto.
        * destruct (search3 st n) as [o st']. cbn [fst snd] in *. subst o st'. cbn [fst snd path_of]. split; [reflexivity|].
          apply add_tracks; auto. { intros n' p' H. right. eauto. } right. eauto.
        * destruct (search3 st n) as [o st']. cbn [fst snd] in *. subst o st'. cbn [fst snd path_of].
          split; [reflexivity|]. split; auto.
    - cbn [PathModel.do_lookup PathSpec.answer].
      assert (E : assoc (files st) c = where_found f c).
      { destruct (assoc (files st) c) as [k|] eqn:AS.
        - apply assoc_in in AS. apply T2 in AS. destruct (in_where _ _ _ AS) as [w W]. rewrite W. f_equal.
          apply where_in in W. eapply OWF; eauto.
        - destruct (where_found f c) as [w|] eqn:W; auto. apply where_in in W. apply T3 in W. destruct W as [j W].
          apply in_assoc in W. destruct W as [v W]. congruence. }
      rewrite E. destruct (where_found f c) as [k|]; [|split; [reflexivity|split; auto]].
      unfold search_next, lookup_next. rewrite next_loop_ok.
      destruct (first_in exists_ _ (k + 1) (skipn (Z.to_nat (k + 1)) dirs) n) as [[p i]|]; cbn [fst snd path_of].
      + split; [reflexivity|]. apply add_tracks; auto. intros n' p' H. right. eauto.
      + split; [reflexivity|]. split; auto. }
  destruct K as [K1 K2]. f_equal; [exact K1|]. apply IH; auto.
Qed.

Lemma start_tracks main : tracks (start main) [(main, -1)].
Proof.
  split; [intros n p []|]. split; [intros n p []|]. split; cbn [start files]; eauto.
Qed.
Lemma start_cache main : cache_ok (start main).
Proof. intros n p []. Qed.
End Lookup.
