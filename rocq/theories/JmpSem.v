(** Proofs for JmpModel.v: what derivations do to the counter, the contexts and the labels; jumps and tables. *)
From Coq Require Import Ascii String ZArith List Bool Lia Arith.
From Verif Require Import JmpSpec JmpModel JmpProofs JmpMain.
Import ListNotations.
Local Open Scope string_scope.
Local Open Scope Z_scope.
Local Open Scope list_scope.

(** * Numbers *)
Definition rng (a b : nat) (l : list (nat * place)) : Prop := NoDup (map fst l) /\ (forall u p, In (u, p) l -> (a <= u < b)%nat) /\ (a <= b)%nat.
Lemma rng_nil : forall a, rng a a []. Proof. intros a. split; [constructor|]. split; [intros u p []|lia]. Qed.
Lemma nodup_app : forall l m : list nat, NoDup l -> NoDup m -> (forall u, In u l -> In u m -> False) -> NoDup (l ++ m).
Proof.
  induction l as [|a l IH]; intros m H K D; [exact K|]. inversion H; subst. cbn [app]. constructor.
  - intros X. apply in_app_or in X as [X|X]; [contradiction|]. apply (D a); [left; reflexivity|exact X].
  - apply IH; [assumption|exact K|]. intros u A B. apply (D u); [right; exact A|exact B].
Qed.
Lemma rng_app : forall a b c l m, rng a b l -> rng b c m -> rng a c (l ++ m).
Proof.
  intros a b c l m [N [R P]] [N' [R' P']]. split; [|split; [|lia]].
  - rewrite map_app. apply nodup_app; [exact N|exact N'|]. intros u A B. apply in_map_iff in A as [[u1 p1] [E1 A]]. apply in_map_iff in B as [[u2 p2] [E2 B]].
    cbn [fst] in *. apply R in A. apply R' in B. lia.
  - intros u p H. apply in_app_or in H as [H|H]; [apply R in H|apply R' in H]; lia.
Qed.
Lemma rng_cons : forall a b u p l, rng (Datatypes.S u) b l -> (a = u)%nat -> rng a b ((u, p) :: l).
Proof.
  intros a b u p l H E. subst a. change ((u, p) :: l) with ([(u, p)] ++ l). apply rng_app with (Datatypes.S u); [|exact H].
  split; [constructor; [intros []|constructor]|]. split; [|lia]. intros v q [X|[]]. injection X as <- <-. lia.
Qed.
Lemma L_rng : forall s ls ns s1, L s ls ns s1 -> rng (ctr s) (ctr s1) (flat_map places ns).
Proof. intros s ls ns s1 [|]; [apply rng_nil|]. cbn [flat_map places app ctr]. apply rng_cons; [apply rng_nil|reflexivity]. Qed.
Lemma W_rng :
  (forall xs s n s', W xs s n s' -> rng (ctr s) (ctr s') (places n)) /\
  (forall s ls b s', Ws s ls b s' -> rng (ctr s) (ctr s') (flat_map places b)) /\
  (forall s b s', Wb s b s' -> rng (ctr s) (ctr s') (flat_map places b)).
Proof.
  apply W_all; try (intros; apply rng_nil).
  - intros xs s k c ls b s1 C H I. exact I.
  - intros xs s k c ls b s1 ms e s2 C H I H' I' Ne. exact (rng_app _ _ _ _ _ I I').
  - intros xs s k c ls b s1 C H I. cbn [places pop ctr]. apply rng_cons; [|reflexivity]. cbn [push_switch ctr] in I. rewrite Nat.add_1_r in I. exact I.
  - intros xs s k c ls b s1 C H I. cbn [places pop ctr]. cbn [push_loop ctr] in I. rewrite !Nat.add_succ_r, Nat.add_0_r in *. apply rng_cons; [|reflexivity].
    apply rng_cons; [exact I|reflexivity].
  - intros xs s k ls b j e s1 H I. cbn [places pop ctr]. cbn [push_loop ctr] in I. rewrite !Nat.add_succ_r, Nat.add_0_r in *. apply rng_cons; [|reflexivity].
    apply rng_cons; [exact I|reflexivity].
  - intros xs s k f c i ls b s1 C H I. cbn [places pop ctr]. cbn [push_loop ctr] in I. rewrite !Nat.add_succ_r, Nat.add_0_r in *. apply rng_cons; [|reflexivity].
    apply rng_cons; [exact I|reflexivity].
  - intros xs s l s1 H I. exact I.
  - intros s ls ns s1 n s2 HL H I. rewrite flat_map_app. apply rng_app with (ctr s1); [exact (L_rng _ _ _ _ HL)|]. cbn [flat_map]. rewrite app_nil_r. exact I.
  - intros s ls ns s1 HL. exact (L_rng _ _ _ _ HL).
  - intros s ls ns s1 d l b s2 HL H I. rewrite flat_map_app. apply rng_app with (ctr s1); [exact (L_rng _ _ _ _ HL)|exact I].
  - intros s ls ns s1 n s2 b s3 HL H I H' I'. rewrite flat_map_app. apply rng_app with (ctr s1); [exact (L_rng _ _ _ _ HL)|].
    cbn [flat_map]. apply rng_app with (ctr s2); [exact I|exact I'].
Qed.

(** * Labels *)
Definition plabs (l : list (nat * place)) : list (list label * nat) :=
  flat_map (fun q => match snd q with PLab ls => [(ls, fst q)] | _ => [] end) l.
Lemma plabs_app : forall l m, plabs (l ++ m) = plabs l ++ plabs m. Proof. intros. unfold plabs. apply flat_map_app. Qed.
Lemma L_labs : forall s ls ns s1, L s ls ns s1 -> labs s1 = rev (plabs (flat_map places ns)) ++ labs s /\ flat_map fst (plabs (flat_map places ns)) = ls.
Proof. intros s ls ns s1 [|]; [split; reflexivity|]. split; [reflexivity|]. cbn. rewrite app_nil_r. reflexivity. Qed.
Definition slabels (b : list node) : list label := fst (part b) ++ labels (snd (part b)).
Definition LB1 (s : st) (pl : list (nat * place)) (s' : st) (ls : list label) : Prop := labs s' = rev (plabs pl) ++ labs s /\ flat_map fst (plabs pl) = ls.
Lemma LB1_nil : forall s s', labs s' = labs s -> LB1 s [] s' []. Proof. intros s s' H. split; [exact H|reflexivity]. Qed.
Lemma LB1_app : forall s p l s1 q m s2, LB1 s p s1 l -> LB1 s1 q s2 m -> LB1 s (p ++ q) s2 (l ++ m).
Proof.
  intros s p l s1 q m s2 [A B] [C D]. split; [|rewrite plabs_app, flat_map_app, B, D; reflexivity].
  rewrite C, A, plabs_app, rev_app_distr, app_assoc. reflexivity.
Qed.
Lemma W_labs :
  (forall xs s n s', W xs s n s' -> LB1 s (places n) s' (labels (erase n))) /\
  (forall s ls b s', Ws s ls b s' -> LB1 s (flat_map places b) s' (slabels b)) /\
  (forall s b s', Wb s b s' -> LB1 s (flat_map places b) s' (flat_map labels (map erase b))).
Proof.
  apply W_all; try (intros; apply LB1_nil; reflexivity).
  - intros xs s k c ls b s1 C H I. exact I.
  - intros xs s k c ls b s1 ms e s2 C H I H' I' Ne. exact (LB1_app _ _ _ _ _ _ _ I I').
  - intros xs s k c ls b s1 C H I. exact I.
  - intros xs s k c ls b s1 C H I. exact I.
  - intros xs s k ls b j e s1 H I. exact I.
  - intros xs s k f c i ls b s1 C H I. exact I.
  - intros xs s l s1 H I. exact I.
  - intros s ls ns s1 n s2 HL H I. unfold slabels. rewrite (L_part _ _ _ _ n HL). rewrite flat_map_app. cbn [flat_map fst snd]. rewrite app_nil_r.
    exact (LB1_app _ _ _ _ _ _ _ (L_labs _ _ _ _ HL) I).
  - intros s ls ns s1 HL. destruct (L_labs _ _ _ _ HL) as [A B]. split; [exact A|]. rewrite B. destruct HL; [reflexivity|].
    cbn [map erase flat_map labels]. rewrite app_nil_r. reflexivity.
  - intros s ls ns s1 d l b s2 HL H I. rewrite map_app, !flat_map_app. cbn [flat_map map erase labels places app].
    replace (flat_map labels (map erase ns)) with ls by (destruct HL; cbn [map erase flat_map labels]; rewrite ?app_nil_r; reflexivity).
    exact (LB1_app _ _ _ _ _ _ _ (L_labs _ _ _ _ HL) I).
  - intros s ls ns s1 n s2 b s3 HL H I H' I'. rewrite map_app, !flat_map_app. cbn [flat_map map].
    replace (flat_map labels (map erase ns)) with ls by (destruct HL; cbn [map erase flat_map labels]; rewrite ?app_nil_r; reflexivity).
    refine (LB1_app _ _ _ _ _ _ _ (L_labs _ _ _ _ HL) _). exact (LB1_app _ _ _ _ _ _ _ I I').
Qed.

(** * Contexts *)
Fixpoint ext (cs ds : list (Z * nat)) (c : list ctx) : list ctx :=
  match c with
  | [] => []
  | a :: c => if c_sw a then Ctx true (c_names a) (c_brk a) (c_cont a) (cs ++ c_cases a) (match ds with d :: _ => Some d | [] => c_def a end) :: c
              else a :: ext cs ds c
  end.
(** Whether there is a switch, and whether it has no default yet. *)
Fixpoint room (c : list ctx) : option bool :=
  match c with [] => None | a :: c => if c_sw a then Some (match c_def a with None => true | Some _ => false end) else room c end.
Definition fits (ls : list label) (c : list ctx) : Prop :=
  match room c with
  | None => cases ls = [] /\ defaults ls = []
  | Some free => (length (defaults ls) <= if free then 1 else 0)%nat
  end.
Lemma ext_nil : forall c, ext [] [] c = c.
Proof. induction c as [|[sw xs b t cs df] c IH]; [reflexivity|]. cbn [ext c_sw c_names c_brk c_cont c_cases c_def app]. destruct sw; [reflexivity|]. rewrite IH. reflexivity. Qed.
Lemma room_ext : forall cs ds c, room (ext cs ds c) = match room c with None => None | Some free => Some (free && match ds with [] => true | _ => false end) end.
Proof.
  induction c as [|a c IH]; [reflexivity|]. cbn [ext room]. destruct (c_sw a) eqn:E; cbn [room c_sw c_def].
  - destruct ds; [|destruct (c_def a); reflexivity]. destruct (c_def a); reflexivity.
  - rewrite E. exact IH.
Qed.
Lemma ext_ext : forall cs ds cs2 ds2 c, ds = [] \/ ds2 = [] -> ext cs2 ds2 (ext cs ds c) = ext (cs2 ++ cs) (ds ++ ds2) c.
Proof.
  intros cs ds cs2 ds2 c H. induction c as [|a c IH]; [reflexivity|]. cbn [ext]. destruct (c_sw a) eqn:E; cbn [ext c_sw c_names c_brk c_cont c_cases c_def].
  - rewrite app_assoc. destruct H as [-> | ->]; [reflexivity|]. rewrite app_nil_r. reflexivity.
  - rewrite E. rewrite IH. reflexivity.
Qed.
Lemma add_case_ok : forall k u c c', add_case k u c = Ok c' -> room c <> None /\ c' = ext [(k, u)] [] c.
Proof.
  induction c as [|a c IH]; intros c' H; [discriminate|]. cbn [add_case room ext] in *. destruct (c_sw a).
  - injection H as <-. split; [discriminate|reflexivity].
  - bi H. injection H as <-. destruct (IH _ E) as [A ->]. split; [exact A|reflexivity].
Qed.
Lemma add_case_pr : forall k u c, room c <> None -> add_case k u c = Ok (ext [(k, u)] [] c).
Proof.
  induction c as [|a c IH]; intros H; [destruct (H eq_refl)|]. cbn [add_case room ext] in *. destruct (c_sw a); [reflexivity|].
  rewrite (IH H). reflexivity.
Qed.
Lemma add_default_ok : forall k u c c', add_default k u c = Ok c' -> room c = Some true /\ c' = ext [] [(k, u)] c.
Proof.
  induction c as [|a c IH]; intros c' H; [discriminate|]. cbn [add_default room ext] in *. destruct (c_sw a).
  - destruct (c_def a); [discriminate|]. injection H as <-. split; reflexivity.
  - bi H. injection H as <-. destruct (IH _ E) as [A ->]. split; [exact A|reflexivity].
Qed.
Lemma add_default_pr : forall k u c, room c = Some true -> add_default k u c = Ok (ext [] [(k, u)] c).
Proof.
  induction c as [|a c IH]; intros H; [discriminate|]. cbn [add_default room ext] in *. destruct (c_sw a).
  - destruct (c_def a); [discriminate|]. reflexivity.
  - rewrite (IH H). reflexivity.
Qed.
Definition here (u : nat) (l : list Z) : list (Z * nat) := map (fun k => (k, u)) l.
Lemma fits_nil : forall c, fits [] c. Proof. intros c. unfold fits. destruct (room c) as [[]|]; cbn; auto. Qed.
Lemma cases_app : forall l m, cases (l ++ m) = cases l ++ cases m. Proof. intros. unfold cases. apply flat_map_app. Qed.
Lemma defaults_app : forall l m, defaults (l ++ m) = defaults l ++ defaults m. Proof. intros. unfold defaults. apply flat_map_app. Qed.
Lemma fits_app : forall l m c cs ds, fits l c -> map fst ds = defaults l -> fits m (ext cs ds c) -> fits (l ++ m) c /\ (ds = [] \/ defaults m = []).
Proof.
  intros l m c cs ds H E K. unfold fits in *. rewrite room_ext in K. rewrite cases_app, defaults_app. destruct (room c) as [b|].
  - rewrite app_length. destruct ds as [|d ds]; cbn [map] in E; rewrite <- E in *.
    + rewrite andb_true_r in K. cbn [length]. split; [exact K|left; reflexivity].
    + rewrite andb_false_r in K. split; [lia|]. right. destruct (defaults m); [reflexivity|cbn in K; lia].
  - destruct H as [-> E1], K as [-> ->]. rewrite E1 in *. split; [split; reflexivity|right; reflexivity].
Qed.
Lemma fits_before : forall l m c, fits (l ++ m) c -> fits l c.
Proof.
  intros l m c H. unfold fits in *. rewrite cases_app, defaults_app in H. destruct (room c).
  - rewrite app_length in H. lia.
  - destruct H as [A B]. apply app_eq_nil in A as [-> _]. apply app_eq_nil in B as [-> _]. split; reflexivity.
Qed.
Lemma fits_after : forall l m c cs ds, fits (l ++ m) c -> map fst ds = defaults l -> fits m (ext cs ds c).
Proof.
  intros l m c cs ds H E. unfold fits in *. rewrite cases_app, defaults_app in H. rewrite room_ext. destruct (room c) as [b|].
  - rewrite app_length, <- E in H. destruct ds as [|d ds]; cbn [map length] in H.
    + rewrite andb_true_r. lia.
    + rewrite andb_false_r. destruct b; lia.
  - destruct H as [A B]. apply app_eq_nil in A as [_ ->]. apply app_eq_nil in B as [_ ->]. split; reflexivity.
Qed.
Lemma here_app : forall u l m, here u (l ++ m) = here u l ++ here u m. Proof. intros. unfold here. apply map_app. Qed.
Lemma here_fst : forall u l, map fst (here u l) = l.
Proof. intros u l. unfold here. rewrite map_map. cbn [fst]. apply map_id. Qed.
Lemma put_ok : forall u ls c c', put u ls c = Ok c' -> fits ls c /\ c' = ext (here u (rev (cases ls))) (here u (defaults ls)) c.
Proof.
  induction ls as [|[k x|k lo hi|k] ls IH]; intros c c' H; cbn [put] in H.
  - injection H as <-. split; [apply fits_nil|]. symmetry. apply ext_nil.
  - destruct (IH _ _ H) as [A B]. split; [exact A|exact B].
  - bi H. destruct (add_case_ok _ _ _ _ E) as [N ->]. destruct (IH _ _ H) as [A ->].
    change (LCase k lo hi :: ls) with ([LCase k lo hi] ++ ls). split.
    + apply (fits_app [LCase k lo hi] ls c [(k, u)] []); [|reflexivity|exact A]. unfold fits. destruct (room c) as [[]|]; [cbn; lia|cbn; lia|destruct (N eq_refl)].
    + rewrite ext_ext by (left; reflexivity). cbn [cases flat_map app rev]. fold (cases ls). rewrite here_app. reflexivity.
  - bi H. destruct (add_default_ok _ _ _ _ E) as [N ->]. destruct (IH _ _ H) as [A ->].
    change (LDef k :: ls) with ([LDef k] ++ ls).
    destruct (fits_app [LDef k] ls c [] [(k, u)]) as [F D]; [unfold fits; rewrite N; cbn; lia|reflexivity|exact A|]. split; [exact F|].
    rewrite ext_ext by (right; destruct D as [D|D]; [discriminate|rewrite D; reflexivity]).
    rewrite cases_app, defaults_app. cbn [cases flat_map app rev]. fold (cases ls). rewrite app_nil_r. reflexivity.
Qed.
Lemma put_pr : forall u ls c, fits ls c -> exists c', put u ls c = Ok c'.
Proof.
  induction ls as [|[k x|k lo hi|k] ls IH]; intros c H; cbn [put].
  - eexists; reflexivity.
  - apply IH. exact H.
  - rewrite (add_case_pr k u c). { cbn [bind]. apply IH. apply (fits_after [LCase k lo hi] ls c [(k, u)] []); [exact H|reflexivity]. }
    intros X. unfold fits in H. rewrite X in H. destruct H. discriminate.
  - rewrite (add_default_pr k u c). { cbn [bind]. apply IH. apply (fits_after [LDef k] ls c [] [(k, u)]); [exact H|reflexivity]. }
    unfold fits in H. destruct (room c) as [[]|]; [reflexivity|cbn in H; lia|destruct H; discriminate].
Qed.

(** The cases and defaults a part of the tree leaves in the switch around it. *)
Definition found (pl : list (nat * place)) (f : list label -> list Z) (q : Z * nat) : Prop := exists ls, In (snd q, PLab ls) pl /\ In (fst q) (f ls).
Definition Gr (ls : list label) (pl : list (nat * place)) (c c' : list ctx) : Prop :=
  fits ls c /\ exists cs ds, c' = ext cs ds c /\ map fst cs = rev (cases ls) /\ map fst ds = defaults ls /\
  Forall (found pl cases) cs /\ Forall (found pl defaults) ds.
Lemma Gr_nil : forall pl c, Gr [] pl c c.
Proof. intros pl c. split; [apply fits_nil|]. exists [], []. rewrite ext_nil. repeat (split; [reflexivity|]). split; constructor. Qed.
Lemma found_incl : forall pl pl' f l, incl pl pl' -> Forall (found pl f) l -> Forall (found pl' f) l.
Proof. intros pl pl' f l H F. eapply Forall_impl; [|exact F]. intros q [ls [A B]]. exists ls. split; [apply H, A|exact B]. Qed.
Lemma Gr_incl : forall ls pl pl' c c', incl pl pl' -> Gr ls pl c c' -> Gr ls pl' c c'.
Proof.
  intros ls pl pl' c c' H [F [cs [ds [A [B [C [D E]]]]]]]. split; [exact F|]. exists cs, ds. repeat (split; [assumption|]).
  split; eapply found_incl; eauto.
Qed.
Lemma Gr_app : forall l p c c1 m q c2, Gr l p c c1 -> Gr m q c1 c2 -> Gr (l ++ m) (p ++ q) c c2.
Proof.
  intros l p c c1 m q c2 [F [cs [ds [-> [B [C [D E]]]]]]] [F' [cs' [ds' [-> [B' [C' [D' E']]]]]]].
  destruct (fits_app l m c cs ds F C F') as [F2 X]. split; [exact F2|]. exists (cs' ++ cs), (ds ++ ds').
  split; [apply ext_ext; destruct X as [X|X]; [left; exact X|right; rewrite X in C'; apply map_eq_nil in C'; exact C']|].
  split; [rewrite map_app, B, B', cases_app, rev_app_distr; reflexivity|].
  split; [rewrite map_app, C, C', defaults_app; reflexivity|].
  split; apply Forall_app; split; eapply found_incl; eauto; try (apply incl_appl, incl_refl); apply incl_appr, incl_refl.
Qed.
Lemma L_Gr : forall s ls ns s1, L s ls ns s1 -> Gr ls (flat_map places ns) (ctxs s) (ctxs s1).
Proof.
  intros s ls ns s1 [|]; [apply Gr_nil|]. cbn [ctxs flat_map places app]. destruct (put_ok _ _ _ _ H) as [F ->]. split; [exact F|].
  eexists _, _. split; [reflexivity|]. rewrite !here_fst. split; [reflexivity|]. split; [reflexivity|].
  split; apply Forall_forall; intros q X; apply in_map_iff in X as [k [<- X]]; exists (a :: l); (split; [left; reflexivity|]); cbn [fst];
    [apply in_rev; exact X|exact X].
Qed.
Definition sown (b : list node) : list label := fst (part b) ++ own (snd (part b)).
Lemma Gr_pop : forall ls pl pl' s xs s1, incl pl pl' -> Gr ls pl (ctxs (push_loop xs s)) (ctxs s1) -> Gr ls pl' (ctxs s) (ctxs (pop s1)).
Proof.
  intros ls pl pl' s xs s1 I H. apply Gr_incl with pl; [exact I|]. destruct H as [F [cs [ds [A [B [C [D E]]]]]]].
  split; [exact F|]. exists cs, ds. cbn [pop ctxs]. rewrite A. split; [reflexivity|]. auto.
Qed.
Lemma W_ctxs :
  (forall xs s n s', W xs s n s' -> Gr (own (erase n)) (places n) (ctxs s) (ctxs s')) /\
  (forall s ls b s', Ws s ls b s' -> Gr (sown b) (flat_map places b) (ctxs s) (ctxs s')) /\
  (forall s b s', Wb s b s' -> Gr (flat_map own (map erase b)) (flat_map places b) (ctxs s) (ctxs s')).
Proof.
  apply W_all; try (intros; apply Gr_nil).
  - intros xs s k c ls b s1 C H I. exact I.
  - intros xs s k c ls b s1 ms e s2 C H I H' I' Ne. exact (Gr_app _ _ _ _ _ _ _ I I').
  - intros xs s k c ls b s1 C H [F [cs [ds [A _]]]]. cbn [pop ctxs]. rewrite A. apply Gr_nil.
  - intros xs s k c ls b s1 C H I. refine (Gr_pop (sown b) _ _ s xs s1 _ I). cbn [places]. apply incl_tl, incl_tl, incl_refl.
  - intros xs s k ls b j e s1 H I. refine (Gr_pop (sown b) _ _ s xs s1 _ I). cbn [places]. apply incl_tl, incl_tl, incl_refl.
  - intros xs s k f c i ls b s1 C H I. refine (Gr_pop (sown b) _ _ s xs s1 _ I). cbn [places]. apply incl_tl, incl_tl, incl_refl.
  - intros xs s l s1 H I. exact I.
  - intros s ls ns s1 n s2 HL H I. unfold sown. rewrite (L_part _ _ _ _ n HL). rewrite flat_map_app. cbn [flat_map fst snd]. rewrite app_nil_r.
    exact (Gr_app _ _ _ _ _ _ _ (L_Gr _ _ _ _ HL) I).
  - intros s ls ns s1 HL. replace (flat_map own (map erase ns)) with ls by (destruct HL; cbn [map erase flat_map own]; rewrite ?app_nil_r; reflexivity).
    exact (L_Gr _ _ _ _ HL).
  - intros s ls ns s1 d l b s2 HL H I. rewrite map_app, !flat_map_app. cbn [flat_map map erase own places app].
    replace (flat_map own (map erase ns)) with ls by (destruct HL; cbn [map erase flat_map own]; rewrite ?app_nil_r; reflexivity).
    exact (Gr_app _ _ _ _ _ _ _ (L_Gr _ _ _ _ HL) I).
  - intros s ls ns s1 n s2 b s3 HL H I H' I'. rewrite map_app, !flat_map_app. cbn [flat_map map].
    replace (flat_map own (map erase ns)) with ls by (destruct HL; cbn [map erase flat_map own]; rewrite ?app_nil_r; reflexivity).
    refine (Gr_app _ _ _ _ _ _ _ (L_Gr _ _ _ _ HL) _). exact (Gr_app _ _ _ _ _ _ _ I I').
Qed.

(** * Tables *)
Lemma table_incl : forall pl pl' t w, incl pl pl' -> right_table pl t w -> right_table pl' t w.
Proof.
  intros pl pl' [k [cs df]] w H [A [B [C [D E]]]]. repeat (split; [assumption|]). split.
  - intros j u X. destruct (D _ _ X) as [ls [Y Z]]. exists ls. split; [apply H, Y|exact Z].
  - intros j u X. destruct (E _ _ X) as [ls [Y Z]]. exists ls. split; [apply H, Y|exact Z].
Qed.
Definition TB (pl : list (nat * place)) := Forall2 (right_table pl).
Lemma TB_incl : forall pl pl' l m, incl pl pl' -> TB pl l m -> TB pl' l m.
Proof. intros pl pl' l m H. induction 1; constructor; [eapply table_incl; eauto|assumption]. Qed.
Lemma TB_app : forall p q l m l' m', TB p l m -> TB q l' m' -> TB (p ++ q) (l ++ l') (m ++ m').
Proof.
  intros p q l m l' m' H K. apply Forall2_app; eapply TB_incl; eauto; [apply incl_appl, incl_refl|apply incl_appr, incl_refl].
Qed.
Lemma L_tables : forall s ls ns s1, L s ls ns s1 -> flat_map tables ns = [] /\ flat_map switches (map erase ns) = [].
Proof. intros s ls ns s1 [|]; split; reflexivity. Qed.
Lemma TB_right : forall ns pl l m, TB pl l m -> TB (ns ++ pl) l m.
Proof. intros ns pl l m. apply TB_incl, incl_appr, incl_refl. Qed.
Lemma W_tables :
  (forall xs s n s', W xs s n s' -> TB (places n) (tables n) (switches (erase n))) /\
  (forall s ls b s', Ws s ls b s' -> TB (flat_map places b) (flat_map tables b) (switches (snd (part b)))) /\
  (forall s b s', Wb s b s' -> TB (flat_map places b) (flat_map tables b) (flat_map switches (map erase b))).
Proof.
  apply W_all; try (intros; constructor; fail).
  - intros xs s k c ls b s1 C H I. exact I.
  - intros xs s k c ls b s1 ms e s2 C H I H' I' Ne. exact (TB_app _ _ _ _ _ _ I I').
  - intros xs s k c ls b s1 C H I. er. cbn [tables switches places]. constructor.
    + destruct (proj1 (proj2 W_ctxs) _ _ _ _ H) as [F [cs [ds [A [B [D [E G]]]]]]]. cbn [push_switch ctxs ext c_sw c_names c_brk c_cont c_cases c_def] in A.
      unfold top_cases, top_default. rewrite A. cbn [c_cases c_def]. rewrite app_nil_r. unfold right_table. split; [reflexivity|].
      split; [exact B|]. unfold fits in F. cbn [push_switch ctxs room c_sw c_def] in F. rewrite <- D in F. rewrite map_length in F.
      rewrite Forall_forall in E, G.
      split; [|split].
      * cbn [snd]. unfold sown in D. rewrite <- D. destruct ds as [|d [|? ?]]; [reflexivity|reflexivity|cbn in F; lia].
      * intros j u X. destruct (E _ X) as [l [Y Z]]. exists l. split; [right; exact Y|exact Z].
      * intros j u X. destruct ds as [|d ds]; [discriminate|]. injection X as ->. destruct (G _ (or_introl eq_refl)) as [l [Y Z]]. exists l. split; [right; exact Y|exact Z].
    + apply TB_incl with (flat_map places b); [apply incl_tl, incl_refl|exact I].
  - intros xs s k c ls b s1 C H I. er. cbn [tables switches places]. apply TB_incl with (flat_map places b); [apply incl_tl, incl_tl, incl_refl|exact I].
  - intros xs s k ls b j e s1 H I. er. cbn [tables switches places]. apply TB_incl with (flat_map places b); [apply incl_tl, incl_tl, incl_refl|exact I].
  - intros xs s k f c i ls b s1 C H I. er. cbn [tables switches places]. apply TB_incl with (flat_map places b); [apply incl_tl, incl_tl, incl_refl|exact I].
  - intros xs s l s1 H I. exact I.
  - intros s ls ns s1 n s2 HL H I. rewrite (L_part _ _ _ _ n HL), !flat_map_app, (proj1 (L_tables _ _ _ _ HL)). cbn [flat_map snd app]. rewrite !app_nil_r.
    apply TB_right, I.
  - intros s ls ns s1 HL. destruct (L_tables _ _ _ _ HL) as [-> ->]. constructor.
  - intros s ls ns s1 d l b s2 HL H I. rewrite map_app, !flat_map_app. destruct (L_tables _ _ _ _ HL) as [-> ->]. apply TB_right, I.
  - intros s ls ns s1 n s2 b s3 HL H I H' I'. rewrite map_app, !flat_map_app. destruct (L_tables _ _ _ _ HL) as [-> ->]. apply TB_right.
    exact (TB_app _ _ _ _ _ _ I I').
Qed.
