(** Proofs about scopes. *)
From Coq Require Import ZArith List Bool Lia.
From Verif Require Import Base HashmapModel HashmapSpec HashmapProofs ScopeSpec ScopeModel.
Import ListNotations.
Local Open Scope Z_scope.

Section Scope.
Variable hash : key -> Z.

Definition bound : Z := 21474837.

(** A table holds the declarations [d]; at most [n] insertions were made. *)
Definition holds (m : hmap) (d : decls) (n : Z) : Prop :=
  rep hash m (newest d) /\ used m <= n /\ Forall (fun p => snd p <> 0) d.

Lemma holds_empty : holds empty_map [] 0.
Proof. split; [apply rep_empty|]. split; [cbn; lia|constructor]. Qed.
Lemma holds_weak m d n n' : holds m d n -> n <= n' -> holds m d n'.
Proof. intros (A & B & C) L. split; auto. split; [lia|auto]. Qed.

Lemma rep_ext m f g : (forall k, f k = g k) -> rep hash m f -> rep hash m g.
Proof.
  intros E. unfold rep. destruct (buckets m) as [b|].
  - intros [I HR]. split; [exact I|]. unfold R in *. intros k v. rewrite <- E. apply HR.
  - intros [U H]. split; auto. intros k. rewrite <- E. apply H.
Qed.

Lemma holds_put m d n k v : holds m d n -> n < bound -> v <> 0 ->
  exists m', hashmap_put hash m k v = Ok m' /\ holds m' ((k, v) :: d) (n + 1).
Proof.
  intros (A & B & C) L V. unfold bound in L. destruct (put_ok hash m (newest d) k v A) as (m' & E & RP & U).
  { unfold INT_MAX. lia. }
  exists m'. split; [exact E|]. split; [|split; [lia|constructor; auto]].
  eapply rep_ext; [|exact RP]. intros k'. unfold fput. cbn [newest].
  destruct (list_eq_dec Z.eq_dec k k'), (keq k k'); try congruence; reflexivity.
Qed.

Lemma newest_nz d k v : Forall (fun p => snd p <> 0) d -> newest d k = Some v -> v <> 0.
Proof.
  induction 1 as [|[k' w] r H F IH]; cbn [newest]; intros E; [discriminate|].
  destruct (list_eq_dec Z.eq_dec k' k); [inversion E; subst; exact H|auto].
Qed.

(** All scopes hold what was declared in them. *)
Inductive agrees : scopes -> env -> Z -> Prop :=
| ag_nil n : agrees [] [] n
| ag_cons mv mt dv dt r e n : holds mv dv n -> holds mt dt n -> agrees r e n ->
    agrees ((mv, mt) :: r) ((dv, dt) :: e) n.
Lemma agrees_weak s e n n' : agrees s e n -> n <= n' -> agrees s e n'.
Proof. induction 1; intros L; constructor; eauto using holds_weak. Qed.

Lemma find_var_ok s e n k : agrees s e n -> find_var hash s k = Ok (visible (map fst e) k).
Proof.
  unfold find_var. induction 1 as [|mv mt dv dt r e n (A & _ & B) _ _ IH]; [reflexivity|].
  cbn [find map fst visible]. rewrite (get_ok hash mv (newest dv) k A). cbn [bind].
  destruct (newest dv k) as [v|] eqn:E.
  - apply newest_nz in E; auto. apply Z.eqb_neq in E. now rewrite E.
  - exact IH.
Qed.
Lemma find_tag_ok s e n k : agrees s e n -> find_tag hash s k = Ok (visible (map snd e) k).
Proof.
  unfold find_tag. induction 1 as [|mv mt dv dt r e n _ (A & _ & B) _ IH]; [reflexivity|].
  cbn [find map snd visible]. rewrite (get_ok hash mt (newest dt) k A). cbn [bind].
  destruct (newest dt k) as [v|] eqn:E.
  - apply newest_nz in E; auto. apply Z.eqb_neq in E. now rewrite E.
  - exact IH.
Qed.

Definition cost (ev : sevent) : Z := if declares ev then 1 else 0.
Lemma declared_cons ev l : declared (ev :: l) = cost ev + declared l.
Proof. unfold declared, cost. cbn [filter]. destruct (declares ev); cbn [length]; lia. Qed.
Lemma declared_pos l : 0 <= declared l.
Proof. unfold declared. lia. Qed.

Lemma step_ok s e n ev e' out : agrees s e n -> 0 <= n -> n + cost ev <= bound -> no_null ev ->
  step e ev = Some (e', out) ->
  exists s', do_event hash s ev = Ok (s', out) /\ agrees s' e' (n + cost ev).
Proof.
  intros AG N0 NB NN ST. destruct ev as [| |k v|k v|k|k]; unfold cost in *; cbn [declares do_event no_null step] in *.
  - inversion ST; subst. eexists. split; [reflexivity|]. unfold enter_scope.
    constructor; [eapply holds_weak; [apply holds_empty|lia]..|eapply agrees_weak; eauto; lia].
  - destruct AG; inversion ST; subst. eexists. split; [reflexivity|]. eapply agrees_weak; eauto; lia.
  - destruct AG as [|mv mt dv dt r e n A B C]; inversion ST; subst. unfold push_scope.
    destruct (holds_put mv dv n k v A ltac:(lia) NN) as (m' & E & H). rewrite E. cbn [bind].
    eexists. split; [reflexivity|]. constructor; auto; [eapply holds_weak|eapply agrees_weak]; eauto; lia.
  - destruct AG as [|mv mt dv dt r e n A B C]; inversion ST; subst. unfold push_tag_scope.
    destruct (holds_put mt dt n k v B ltac:(lia) NN) as (m' & E & H). rewrite E. cbn [bind].
    eexists. split; [reflexivity|]. constructor; auto; [eapply holds_weak|eapply agrees_weak]; eauto; lia.
  - rewrite (find_var_ok s e n k AG). cbn [bind]. inversion ST; subst. eexists. split; [reflexivity|].
    eapply agrees_weak; eauto; lia.
  - rewrite (find_tag_ok s e n k AG). cbn [bind]. inversion ST; subst. eexists. split; [reflexivity|].
    eapply agrees_weak; eauto; lia.
Qed.

Lemma run_ok l : forall s e n out, agrees s e n -> 0 <= n -> n + declared l <= bound -> Forall no_null l ->
  lookups e l = Some out -> exists s', run_events hash s l = Ok (s', out).
Proof.
  induction l as [|ev l IH]; cbn [lookups run_events]; intros s e n out AG N0 NB NN LK.
  - inversion LK; subst. eauto.
  - destruct (step e ev) as [[e' o]|] eqn:ST; [|discriminate].
    destruct (lookups e' l) as [q|] eqn:LQ; [|discriminate]. inversion LK; subst; clear LK.
    inversion NN; subst. rewrite declared_cons in NB. pose proof (declared_pos l).
    assert (0 <= cost ev) by (unfold cost; destruct (declares ev); lia).
    destruct (step_ok s e n ev e' o AG N0 ltac:(lia) H1 ST) as (s' & E & AG').
    rewrite E. cbn [bind fst snd].
    destruct (IH s' e' _ q AG' ltac:(lia) ltac:(lia) H2 LQ) as (s'' & E'). rewrite E'. cbn [bind fst snd]. eauto.
Qed.

(** Leaving a scope restores everything. *)
Lemma run_stays l : forall d s t r out, stays d l -> length s = d -> run_events hash (s ++ t) l = Ok (r, out) -> r = t.
Proof.
  induction l as [|ev l IH]; intros d s t r out ST LN RN.
  - cbn [stays] in ST. subst. destruct s; [|discriminate]. cbn in RN. now inversion RN.
  - cbn [run_events] in RN.
    destruct (do_event hash (s ++ t) ev) as [[s1 o]| |] eqn:DE; [|discriminate..]. cbn [bind fst snd] in RN.
    destruct (run_events hash s1 l) as [[s2 q]| |] eqn:RE; [|discriminate..]. cbn [bind fst snd] in RN.
    inversion RN; subst r out; clear RN.
    destruct ev as [| |k v|k v|k|k]; cbn [do_event stays] in *.
    + inversion DE; subst. apply (IH (S (length s)) ((empty_map, empty_map) :: s) t s2 q); auto.
    + destruct d; [destruct ST|]. destruct s as [|sc s]; [discriminate|]. cbn in DE. inversion DE; subst.
      injection LN as LN. apply (IH d s t s2 q); auto.
    + destruct ST as [NZ ST]. destruct s as [|[mv mt] s]; [cbn in LN; congruence|]. cbn [app push_scope] in DE.
      destruct (hashmap_put hash mv k v) as [m'| |]; [|discriminate..]. cbn [bind] in DE. inversion DE; subst.
      apply (IH _ ((m', mt) :: s) t s2 q ST); auto.
    + destruct ST as [NZ ST]. destruct s as [|[mv mt] s]; [cbn in LN; congruence|]. cbn [app push_tag_scope] in DE.
      destruct (hashmap_put hash mt k v) as [m'| |]; [|discriminate..]. cbn [bind] in DE. inversion DE; subst.
      apply (IH _ ((mv, m') :: s) t s2 q ST); auto.
    + destruct (find_var hash (s ++ t) k); [|discriminate..]. cbn [bind] in DE. inversion DE; subst.
      apply (IH _ s t s2 q ST); auto.
    + destruct (find_tag hash (s ++ t) k); [|discriminate..]. cbn [bind] in DE. inversion DE; subst.
      apply (IH _ s t s2 q ST); auto.
Qed.
End Scope.
