(** Proofs about the include search list and include lookups. *)
From Coq Require Import ZArith List Bool Lia Arith.
From Verif Require Import Base PathSpec PathModel.
Import ListNotations.
Local Open Scope Z_scope.

(** ** Strings *)
Definition peqb (a b : path) : bool := if path_eq_dec a b then true else false.
Lemma cbyte_at p a : cbyte (p ++ a) (length p) = Ok (hd 0 a).
Proof.
  unfold cbyte. rewrite nth_error_app2 by lia. rewrite Nat.sub_diag. destruct a as [|c a]; cbn [nth_error hd]; auto.
  rewrite app_nil_r, Nat.eqb_refl. reflexivity.
Qed.
Lemma cbyte_nth s i c : nth_error s i = Some c -> cbyte s i = Ok c.
Proof. unfold cbyte. now intros ->. Qed.

Lemma snoc_app {A} (p : list A) c a : (p ++ [c]) ++ a = p ++ c :: a.
Proof. now rewrite <- app_assoc. Qed.
Lemma snoc_len {A} (p : list A) c : length (p ++ [c]) = S (length p).
Proof. rewrite app_length. cbn. lia. Qed.

Lemma strncmp0_pre n : forall a b p q, length p = length q -> c_string a -> c_string b -> (n <= length b)%nat ->
  strncmp0 (p ++ a) (q ++ b) (length p) n = Ok (peqb (firstn n a) (firstn n b)).
Proof.
  induction n as [|n IH]; intros a b p q L Ca Cb N; cbn [strncmp0 firstn]; [reflexivity|].
  rewrite cbyte_at, L, cbyte_at. cbn [bind]. destruct b as [|cb b]; [cbn in N; lia|]. cbn [hd].
  inversion Cb as [|? ? Nb Cb']; subst.
  destruct a as [|ca a]; cbn [hd].
  - destruct (Z.eqb_spec 0 cb); [congruence|]. cbn [negb]. unfold peqb. destruct (path_eq_dec [] (cb :: firstn n b)); congruence.
  - inversion Ca as [|? ? Na Ca']; subst. destruct (Z.eqb_spec ca cb) as [->|NE]; cbn [negb].
    + destruct (Z.eqb_spec cb 0); [congruence|].
      rewrite <- (snoc_app p), <- (snoc_app q), <- L, <- (snoc_len p cb).
      rewrite IH; auto; [|rewrite !snoc_len; lia|cbn in N; lia].
      f_equal. unfold peqb. destruct (path_eq_dec (firstn n a) (firstn n b)), (path_eq_dec (cb :: firstn n a) (cb :: firstn n b)); congruence.
    + unfold peqb. destruct (path_eq_dec (ca :: firstn n a) (cb :: firstn n b)); congruence.
Qed.
Lemma strcmp0_ok a : forall b p q, length p = length q -> c_string a -> c_string b ->
  strncmp0 (p ++ a) (q ++ b) (length p) (S (length a)) = Ok (peqb a b).
Proof.
  induction a as [|ca a IH]; intros b p q L Ca Cb; cbn [strncmp0 length]; rewrite cbyte_at, L, cbyte_at; cbn [bind hd].
  - destruct b as [|cb b]; cbn [hd]; [reflexivity|]. inversion Cb; subst.
    destruct (Z.eqb_spec 0 cb); [congruence|]. cbn [negb]. unfold peqb. destruct (path_eq_dec [] (cb :: b)); congruence.
  - inversion Ca as [|? ? Na Ca']; subst. destruct b as [|cb b]; cbn [hd].
    + destruct (Z.eqb_spec ca 0); [congruence|]. cbn [negb]. unfold peqb. destruct (path_eq_dec (ca :: a) []); congruence.
    + inversion Cb as [|? ? Nb Cb']; subst. destruct (Z.eqb_spec ca cb) as [->|NE]; cbn [negb].
      * destruct (Z.eqb_spec cb 0); [congruence|].
        rewrite <- (snoc_app p), <- (snoc_app q), <- L, <- (snoc_len p cb).
        change (strncmp0 ((p ++ [cb]) ++ a) ((q ++ [cb]) ++ b) (length (p ++ [cb])) (S (length a)) = Ok (peqb (cb :: a) (cb :: b))).
        rewrite IH; auto; [|rewrite !snoc_len; lia].
        f_equal. unfold peqb. destruct (path_eq_dec a b), (path_eq_dec (cb :: a) (cb :: b)); congruence.
      * unfold peqb. destruct (path_eq_dec (ca :: a) (cb :: b)); congruence.
Qed.

(** ** Trailing slashes *)
Lemma drop_slashes_in r : forall c, In c (drop_slashes r) -> In c r.
Proof. induction r as [|a r IH]; cbn [drop_slashes]; intros c; auto. destruct (a =? slash); [right; auto|auto]. Qed.
Lemma strip_slash p : p <> [] -> strip (p ++ [slash]) = strip p.
Proof.
  intros N. unfold strip. rewrite rev_app_distr. cbn [rev app drop_slashes]. rewrite Z.eqb_refl.
  destruct (rev (drop_slashes (rev p))); auto. destruct p; [congruence|reflexivity].
Qed.
Lemma strip_other p c : c <> slash -> strip (p ++ [c]) = p ++ [c].
Proof.
  intros N. unfold strip. rewrite rev_app_distr. cbn [rev app drop_slashes].
  destruct (Z.eqb_spec c slash); [congruence|]. cbn [rev]. rewrite rev_involutive. destruct p; reflexivity.
Qed.
Lemma strip_cases p : p = [] /\ strip p = [] \/ p <> [] /\ strip p = [slash] \/
  exists q c, strip p = q ++ [c] /\ c <> slash.
Proof.
  induction p as [|c p IH] using rev_ind; [left; auto|]. right.
  assert (NE : p ++ [c] <> []) by (destruct p; discriminate).
  destruct (Z.eq_dec c slash) as [->|N].
  - destruct p as [|a p]; [left; split; [auto|reflexivity]|].
    rewrite strip_slash by discriminate. destruct IH as [[E _]|[[_ E]|(q & c & E & NS)]]; [discriminate|left; auto|right; eauto].
  - right. exists p, c. split; auto. now apply strip_other.
Qed.
Lemma strip_idem p : strip (strip p) = strip p.
Proof.
  destruct (strip_cases p) as [[_ E]|[[_ E]|(q & c & E & N)]]; rewrite E; auto. now apply strip_other.
Qed.
Lemma strip_c_string p : c_string p -> c_string (strip p).
Proof.
  unfold c_string. rewrite !Forall_forall. intros H c IN. unfold strip in IN.
  destruct (rev (drop_slashes (rev p))) as [|a q] eqn:E.
  - destruct p; [destruct IN|]. destruct IN as [<-|[]]. discriminate.
  - rewrite <- E in IN. apply in_rev, drop_slashes_in, in_rev in IN. auto.
Qed.

Lemma firstn_S_nth {A} (p : list A) l c : nth_error p l = Some c -> firstn (S l) p = firstn l p ++ [c].
Proof.
  revert p. induction l as [|l IH]; intros [|a p] H; try discriminate; cbn [nth_error] in H.
  - inversion H; subst. reflexivity.
  - change (firstn (S (S l)) (a :: p)) with (a :: firstn (S l) p). rewrite (IH p H). reflexivity.
Qed.
Lemma trim_ok p : forall len, (len <= length p)%nat ->
  exists k, trim p len = Ok k /\ (k <= len)%nat /\ firstn k p = strip (firstn len p).
Proof.
  induction len as [|len IH]; intros L.
  - exists O. split; [reflexivity|]. split; [lia|reflexivity].
  - destruct len as [|len].
    + exists 1%nat. split; [reflexivity|]. split; [lia|]. destruct p as [|c p]; [cbn in L; lia|].
      cbn [firstn]. destruct (Z.eq_dec c slash) as [->|N]; [reflexivity|]. symmetry. apply (strip_other [] c N).
    + destruct (nth_error p (S len)) as [c|] eqn:E; [|apply nth_error_None in E; lia].
      pose proof (firstn_S_nth p _ _ E) as F. rewrite F. cbn [trim]. rewrite (cbyte_nth _ _ _ E). cbn [bind].
      destruct (Z.eqb_spec c slash) as [->|N].
      * destruct (IH ltac:(lia)) as (k & T & K & H). exists k. split; [exact T|]. split; [lia|].
        rewrite strip_slash; auto. destruct p; [cbn in L; lia|discriminate].
      * exists (S (S len)). split; [reflexivity|]. split; [lia|]. now rewrite strip_other.
Qed.

Lemma has_path_peqb p s r : has_path p (s :: r) = peqb s p || has_path p r.
Proof.
  unfold has_path, peqb. destruct (in_dec path_eq_dec p (s :: r)) as [I1|N1], (path_eq_dec s p), (in_dec path_eq_dec p r); cbn; auto;
    try (destruct I1; congruence); try (exfalso; apply N1; cbn; tauto).
Qed.
Lemma listed_ok p len : c_string p -> (len <= length p)%nat -> forall arr, Forall c_string arr ->
  listed arr p len = Ok (has_path (firstn len p) arr).
Proof.
  intros Cp L. induction 1 as [|s r Cs F IH]; cbn [listed]; [reflexivity|].
  pose proof (strncmp0_pre len s p [] [] eq_refl Cs Cp L) as E. cbn [app length] in E. rewrite E. cbn [bind].
  rewrite has_path_peqb. unfold peqb at 1.
  destruct (path_eq_dec (firstn len s) (firstn len p)) as [E1|E1].
  - assert (LS : (len <= length s)%nat).
    { assert (length (firstn len s) = length (firstn len p)) by congruence. rewrite !firstn_length in H. lia. }
    assert (CB : cbyte s len = Ok (hd 0 (skipn len s))).
    { pose proof (cbyte_at (firstn len s) (skipn len s)) as CB. rewrite firstn_skipn in CB.
      rewrite firstn_length_le in CB by lia. exact CB. }
    rewrite CB. cbn [bind]. unfold peqb. destruct (skipn len s) as [|c t] eqn:SK; cbn [hd].
    + rewrite Z.eqb_refl. assert (ES : s = firstn len s) by (rewrite <- (firstn_skipn len s) at 1; rewrite SK, app_nil_r; auto).
      destruct (path_eq_dec s (firstn len p)); [reflexivity|congruence].
    + assert (NC : c <> 0).
      { assert (IN : In c s) by (rewrite <- (firstn_skipn len s), SK; apply in_app_iff; right; now left).
        unfold c_string in Cs. rewrite Forall_forall in Cs. auto. }
      apply Z.eqb_neq in NC. rewrite NC.
      destruct (path_eq_dec s (firstn len p)) as [ES|_]; [|exact IH].
      exfalso. assert (length s = length (firstn len p)) by congruence. rewrite firstn_length_le in H by lia.
      assert (length (skipn len s) = O) by (rewrite skipn_length; lia). rewrite SK in H0. discriminate.
  - cbn [bind]. unfold peqb. destruct (path_eq_dec s (firstn len p)) as [ES|_]; [|exact IH].
    exfalso. apply E1. rewrite ES, firstn_firstn, Nat.min_id. reflexivity.
Qed.

Lemma add_ok arr p : c_string p -> Forall c_string arr ->
  add_include_path arr p = Ok (arr ++ firsts arr [strip p]).
Proof.
  intros Cp Ca. unfold add_include_path. destruct (trim_ok p (length p) (le_n _)) as (k & T & K & H).
  rewrite firstn_all in H. rewrite T. cbn [bind]. rewrite listed_ok by auto. cbn [bind]. rewrite H.
  cbn [firsts]. destruct (has_path (strip p) arr); [now rewrite app_nil_r|].
  destruct (Nat.eqb_spec k (length p)) as [->|_]; [|reflexivity]. rewrite firstn_all in H. now rewrite <- H.
Qed.

(** ** First occurrences *)
Lemma has_path_ext p l m : (forall x, In x l <-> In x m) -> has_path p l = has_path p m.
Proof.
  intros H. unfold has_path. destruct (in_dec path_eq_dec p l) as [A|A], (in_dec path_eq_dec p m) as [B|B]; auto;
    rewrite H in A; contradiction.
Qed.
Lemma has_path_in p l : has_path p l = true <-> In p l.
Proof. unfold has_path. destruct (in_dec path_eq_dec p l); intuition discriminate. Qed.
Lemma firsts_ext l : forall s s', (forall x, In x s <-> In x s') -> firsts s l = firsts s' l.
Proof.
  induction l as [|p r IH]; intros s s' H; cbn [firsts]; auto. rewrite (has_path_ext p _ _ H).
  destruct (has_path p s'); [auto|]. f_equal. apply IH. intros x. cbn. rewrite H. tauto.
Qed.
Lemma firsts_app a : forall s b, firsts s (a ++ b) = firsts s a ++ firsts (s ++ firsts s a) b.
Proof.
  induction a as [|p r IH]; intros s b; cbn [app firsts]; [now rewrite app_nil_r|].
  destruct (has_path p s); [auto|]. cbn [app]. rewrite IH. f_equal. f_equal. apply firsts_ext.
  intros x. rewrite !in_app_iff. cbn. rewrite ?in_app_iff. tauto.
Qed.
Lemma firsts_firsts l : forall s t, (forall x, In x t -> In x s) -> firsts s (firsts t l) = firsts s l.
Proof.
  induction l as [|p r IH]; intros s t H; cbn [firsts]; auto. destruct (has_path p t) eqn:E.
  - rewrite (proj2 (has_path_in p s)) by (apply H, has_path_in, E). auto.
  - cbn [firsts]. destruct (has_path p s) eqn:E2.
    + apply IH. intros x [<-|Hx]; [apply has_path_in, E2|auto].
    + f_equal. apply IH. intros x [<-|Hx]; [now left|right; auto].
Qed.
Lemma firsts_in l : forall s x, In x (firsts s l) <-> In x l /\ ~ In x s.
Proof.
  induction l as [|p r IH]; intros s x; cbn [firsts]; [cbn; tauto|]. destruct (has_path p s) eqn:E.
  - rewrite IH. apply has_path_in in E. cbn. split; [tauto|]. intros [[<-|H] N]; [contradiction|auto].
  - assert (N : ~ In p s) by (rewrite <- has_path_in, E; discriminate). cbn [In]. rewrite IH. cbn [In].
    split; [intros [<-|H]; tauto|]. intros [[<-|H] K]; [now left|]. destruct (path_eq_dec p x); tauto.
Qed.
Lemma firsts_nodup l : forall s, NoDup (firsts s l).
Proof.
  induction l as [|p r IH]; intros s; cbn [firsts]; [constructor|]. destruct (has_path p s); auto.
  constructor; auto. rewrite firsts_in. cbn. tauto.
Qed.
Lemma firsts_all (Q : path -> Prop) l s : Forall Q l -> Forall Q (firsts s l).
Proof. rewrite !Forall_forall. intros H x Hx. apply firsts_in in Hx. apply H. tauto. Qed.

Lemma map_strip_c l : Forall c_string l -> Forall c_string (map strip l).
Proof. intros H. apply Forall_map. eapply Forall_impl; [|exact H]. intros p. apply strip_c_string. Qed.

Lemma add_all_ok l : forall arr, Forall c_string l -> Forall c_string arr ->
  add_all arr l = Ok (arr ++ firsts arr (map strip l)).
Proof.
  induction l as [|p r IH]; intros arr Cl Ca; cbn [add_all map]; [cbn; now rewrite app_nil_r|].
  inversion Cl as [|? ? Cp Cr]; subst. rewrite add_ok by auto. cbn [bind]. rewrite IH; auto.
  - change (strip p :: map strip r) with ([strip p] ++ map strip r). rewrite firsts_app, app_assoc. reflexivity.
  - apply Forall_app. split; [exact Ca|]. apply firsts_all. constructor; [now apply strip_c_string|constructor].
Qed.

Lemma options_ok l : forall u y a, Forall (fun o => c_string (opt_dir o)) l ->
  Forall c_string u -> Forall c_string y -> Forall c_string a ->
  options (u, y, a) l = Ok (u ++ firsts u (map strip (dirs_I l)), y ++ firsts y (map strip (dirs_system l)),
                            a ++ firsts a (map strip (dirs_after l))).
Proof.
  assert (ONE : forall arr p l, arr ++ firsts arr (map strip ([p] ++ l)) =
    (arr ++ firsts arr [strip p]) ++ firsts (arr ++ firsts arr [strip p]) (map strip l)).
  { intros arr p r. cbn [map app]. change (strip p :: map strip r) with ([strip p] ++ map strip r).
    rewrite firsts_app, app_assoc. reflexivity. }
  assert (CST : forall arr p, c_string p -> Forall c_string arr -> Forall c_string (arr ++ firsts arr [strip p])).
  { intros arr p Cp Ca. apply Forall_app. split; [exact Ca|]. apply firsts_all. constructor; [now apply strip_c_string|constructor]. }
  induction l as [|o r IH]; intros u y a Cl Cu Cy Ca; cbn [options].
  - cbn. now rewrite !app_nil_r.
  - inversion Cl as [|? ? Co Cr]; subst. destruct o as [p|p|p]; cbn [option_step opt_dir] in *; rewrite add_ok by auto; cbn [bind];
      rewrite IH by auto; cbn [dirs_I dirs_system dirs_after flat_map app]; fold (dirs_I r) (dirs_system r) (dirs_after r);
      rewrite <- ONE; reflexivity.
Qed.

Lemma is_system_ok p : c_string p -> forall sys, Forall c_string sys -> is_system sys p = Ok (has_path p sys).
Proof.
  intros Cp. induction 1 as [|s r Cs F IH]; cbn [is_system]; [reflexivity|].
  unfold strcmp0. pose proof (strcmp0_ok s p [] [] eq_refl Cs Cp) as E. cbn [app] in E. change (length (@nil Z)) with O in E.
  rewrite E. cbn [bind]. rewrite has_path_peqb. destruct (peqb s p); auto.
Qed.
Lemma keep_user_ok sys : Forall c_string sys -> forall u, Forall c_string u ->
  keep_user sys u = Ok (filter (fun p => negb (has_path p sys)) u).
Proof.
  intros Cs. induction 1 as [|p r Cp F IH]; cbn [keep_user filter]; [reflexivity|].
  rewrite is_system_ok by auto. cbn [bind]. rewrite IH. cbn [bind]. now destruct (has_path p sys).
Qed.

Lemma dirs_c l (f : iopt -> list path) : (forall o, f o = [] \/ f o = [opt_dir o]) ->
  Forall (fun o => c_string (opt_dir o)) l -> Forall c_string (flat_map f l).
Proof.
  intros H. induction 1 as [|o r Co F IH]; cbn [flat_map]; [constructor|]. apply Forall_app. split; auto.
  destruct (H o) as [-> | ->]; [constructor|constructor; auto].
Qed.

Theorem search_list_ok std l : Forall c_string std -> Forall (fun o => c_string (opt_dir o)) l ->
  include_paths std l = Ok (search_list std l).
Proof.
  intros Cs Cl. unfold include_paths. rewrite options_ok by (auto || constructor). cbn [bind app].
  assert (Cu : Forall c_string (dirs_I l)) by (apply dirs_c; auto; intros []; auto).
  assert (Cy : Forall c_string (dirs_system l)) by (apply dirs_c; auto; intros []; auto).
  assert (Ca : Forall c_string (dirs_after l)) by (apply dirs_c; auto; intros []; auto).
  apply map_strip_c in Cu, Cy, Ca.
  rewrite add_all_ok; [|auto|apply firsts_all; auto]. cbn [bind].
  rewrite add_all_ok; [|apply firsts_all; auto|]; cycle 1.
  { apply Forall_app. split; apply firsts_all; auto. now apply map_strip_c. }
  cbn [bind].
  assert (IDEM : map strip (firsts [] (map strip (dirs_after l))) = firsts [] (map strip (dirs_after l))).
  { rewrite <- map_id. apply map_ext_in. intros x Hx. apply firsts_in in Hx. destruct Hx as [Hx _].
    apply in_map_iff in Hx. destruct Hx as (q & <- & _). apply strip_idem. }
  rewrite IDEM, firsts_firsts by (intros x []).
  assert (SYS : (firsts [] (map strip (dirs_system l)) ++
      firsts (firsts [] (map strip (dirs_system l))) (map strip std)) ++
      firsts (firsts [] (map strip (dirs_system l)) ++ firsts (firsts [] (map strip (dirs_system l))) (map strip std))
        (map strip (dirs_after l)) = system_list std l).
  { unfold system_list. rewrite !map_app, !firsts_app. cbn [app]. now rewrite <- app_assoc. }
  rewrite SYS. rewrite keep_user_ok.
  - reflexivity.
  - unfold system_list. apply firsts_all. rewrite !map_app. apply Forall_app. split; auto.
    apply Forall_app. split; auto. now apply map_strip_c.
  - apply firsts_all; auto.
Qed.

Theorem search_list_nodup std l : NoDup (search_list std l).
Proof.
  unfold search_list. assert (H : NoDup (system_list std l)) by apply firsts_nodup.
  assert (K : NoDup (firsts [] (map strip (dirs_I l)))) by apply firsts_nodup.
  revert H K. generalize (system_list std l) (firsts [] (map strip (dirs_I l))). intros sys u NS NU.
  induction u as [|p r IH]; cbn [filter app]; [exact NS|]. inversion NU as [|? ? NI NR]; subst.
  destruct (has_path p sys) eqn:E; cbn [negb]; auto. cbn [app]. constructor; auto.
  rewrite in_app_iff. intros [IN|IN].
  - apply filter_In in IN. tauto.
  - apply has_path_in in IN. congruence.
Qed.
Theorem search_list_in std l p :
  In p (search_list std l) <-> In p (map strip (map opt_dir l ++ std)).
Proof.
  unfold search_list. rewrite in_app_iff, filter_In, firsts_in.
  assert (SY : In p (system_list std l) <-> In p (map strip (dirs_system l ++ std ++ dirs_after l))).
  { unfold system_list. rewrite firsts_in. cbn. tauto. }
  assert (HP : negb (has_path p (system_list std l)) = true <-> ~ In p (system_list std l)).
  { rewrite negb_true_iff, <- has_path_in. destruct (has_path p (system_list std l)); intuition congruence. }
  rewrite HP.
  assert (O : In p (map strip (map opt_dir l)) <->
    In p (map strip (dirs_I l)) \/ In p (map strip (dirs_system l)) \/ In p (map strip (dirs_after l))).
  { clear. induction l as [|o r IH]; [cbn; tauto|].
    destruct o as [q|q|q]; cbn [map opt_dir dirs_I dirs_system dirs_after flat_map app In];
      fold (dirs_I r) (dirs_system r) (dirs_after r); rewrite IH; tauto. }
  rewrite map_app, in_app_iff, O, SY. rewrite !map_app, !in_app_iff.
  destruct (in_dec path_eq_dec p (system_list std l)) as [I1|N1]; rewrite SY in *; rewrite ?map_app, ?in_app_iff in *;
    cbn [In]; tauto.
Qed.
