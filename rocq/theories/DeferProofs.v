From Coq Require Import List Bool Arith Lia.
From Verif Require Import Base DeferSpec DeferModel.
Import ListNotations.

(** ** Code with the expected stack at each point *)
Definition le (p q : option stk) : Prop := p = None \/ p = q.
Definition is_lab (i : instr) : bool := match i with Lab _ => true | _ => false end.
Section T.
Variable A : list (nat * stk).
Variable G : list (lab * stk).
Inductive T : option stk -> list instr -> option stk -> Prop :=
| T_nil p q : le p q -> T p [] q
| T_dead i c q : is_lab i = false -> T None c q -> T None (i :: c) q
| T_act n s c q : In (n, s) A -> T (Some s) c q -> T (Some s) (Act n :: c) q
| T_reg e s c q : T (Some (e :: s)) c q -> T (Some s) (Reg e :: c) q
| T_run e s c q : T (Some s) c q -> T (Some (e :: s)) (Run e :: c) q
| T_sp v s s' c q : set_sp v s = Some s' -> T (Some s') c q -> T (Some s) (SetSp v :: c) q
| T_br l s c q : In (l, s) G -> T (Some s) c q -> T (Some s) (Br l :: c) q
| T_jmp l s c q : In (l, s) G -> T None c q -> T (Some s) (Jmp l :: c) q
| T_lab l p s c q : In (l, s) G -> le p (Some s) -> T (Some s) c q -> T p (Lab l :: c) q
| T_ret c q : T None c q -> T (Some []) (Ret :: c) q.
Lemma le_refl : forall p, le p p. Proof. right. reflexivity. Qed.
Lemma le_none : forall p, le None p. Proof. left. reflexivity. Qed.
Lemma T_none : forall p c q, T p c q -> T None c q.
Proof.
  intros p c q H. induction H; try (apply T_dead; [reflexivity|assumption]).
  - apply T_nil, le_none.
  - apply T_dead; assumption.
  - eapply T_lab; [eassumption|apply le_none|assumption].
Qed.
Lemma T_pre : forall p p' c q, T p c q -> le p' p -> T p' c q.
Proof. intros p p' c q H [->| ->]; [eapply T_none; eassumption|assumption]. Qed.
Lemma T_post : forall p c q q', T p c q -> le q q' -> T p c q'.
Proof.
  intros p c q q' H L. induction H; try (econstructor; eauto; fail).
  apply T_nil. destruct H as [->| ->]; [apply le_none|exact L].
Qed.
Lemma T_app : forall p a q b r, T p a q -> T q b r -> T p (a ++ b) r.
Proof.
  intros p a q b r H K. induction H; cbn [app]; try (econstructor; eauto; fail).
  eapply T_pre; eassumption.
Qed.
End T.
Lemma T_one : forall A G p i q, T A G p [i] q -> forall c r, T A G q c r -> T A G p (i :: c) r.
Proof. intros A G p i q H c r K. change (i :: c) with ([i] ++ c). eapply T_app; eassumption. Qed.

(** ** Safety *)
Lemma target_in : forall c l t, target c l = Some t -> exists pre, c = pre ++ Lab l :: t.
Proof.
  induction c as [|i c IH]; intros l t H; [discriminate|]. cbn [target] in H.
  assert (R : target c l = Some t -> exists pre, i :: c = pre ++ Lab l :: t).
  { intros E. destruct (IH _ _ E) as (pre & ->). exists (i :: pre). reflexivity. }
  destruct i; try (apply R; exact H). destruct (lab_eqb l0 l) eqn:E; [|apply R; exact H].
  injection H as <-. exists []. cbn [app]. f_equal. f_equal. destruct l0, l; cbn [lab_eqb] in E; try discriminate; apply Nat.eqb_eq in E; congruence.
Qed.
Lemma lab_eqb_refl : forall l, lab_eqb l l = true.
Proof. destruct l; apply Nat.eqb_refl. Qed.
Lemma target_ex : forall c l, In l (labs c) -> exists t, target c l = Some t.
Proof.
  induction c as [|i c IH]; intros l H; [destruct H|]. cbn [labs flat_map] in H. cbn [target].
  destruct i; cbn [app] in H; try (apply IH; exact H). destruct (lab_eqb l0 l) eqn:E; [eexists; reflexivity|].
  destruct H as [->|H]; [rewrite lab_eqb_refl in E; discriminate|]. apply IH. exact H.
Qed.
Lemma T_suffix : forall A G pre p c q, T A G p (pre ++ c) q -> exists p', T A G p' c q.
Proof.
  induction pre as [|i pre IH]; intros p c q H; [exists p; exact H|]. cbn [app] in H. inversion H; subst; eapply IH; eassumption.
Qed.
Lemma nodup_fst : forall (G : list (lab * stk)) l s s', NoDup (map fst G) -> In (l, s) G -> In (l, s') G -> s = s'.
Proof.
  induction G as [|[k v] G IH]; intros l s s' N I1 I2; [destruct I1|]. cbn [map fst] in N. inversion N as [|? ? NI N']; subst.
  destruct I1 as [E1|I1], I2 as [E2|I2].
  - congruence.
  - injection E1 as -> ->. destruct NI. change l with (fst (l, s')). apply in_map. exact I2.
  - injection E2 as -> ->. destruct NI. change l with (fst (l, s)). apply in_map. exact I1.
  - eapply IH; eassumption.
Qed.
Lemma safe : forall A G code, map fst G = labs code -> NoDup (labs code) -> T A G (Some []) code (Some []) ->
  forall st, steps code (code, []) st -> fine code A st.
Proof.
  intros A G code EG ND HT.
  assert (IN : forall l s, In (l, s) G -> exists t, target code l = Some t).
  { intros l s H. apply target_ex. rewrite <- EG. change l with (fst (l, s)). apply in_map. exact H. }
  assert (TG : forall l s t, In (l, s) G -> target code l = Some t -> T A G (Some s) t (Some [])).
  { intros l s t H E. apply target_in in E. destruct E as (pre & E). rewrite E in HT. apply T_suffix in HT. destruct HT as (p & HT).
    inversion HT; subst; [discriminate|]. rewrite (nodup_fst G l s s0); [assumption|rewrite EG; exact ND|exact H|assumption]. }
  assert (STEP : forall a b, step code a b -> T A G (Some (snd a)) (fst a) (Some []) -> T A G (Some (snd b)) (fst b) (Some [])).
  { intros a b H K. destruct H; cbn [fst snd] in *; inversion K; subst; try assumption; try (eapply TG; eassumption).
    - congruence.
    - match goal with H : le _ _ |- _ => destruct H as [H|H]; [discriminate|injection H as ->]; assumption end. }
  assert (INV : forall a b, steps code a b -> T A G (Some (snd a)) (fst a) (Some []) -> T A G (Some (snd b)) (fst b) (Some [])).
  { intros a b H. induction H; intros K; [exact K|]. apply IHsteps. eapply STEP; eassumption. }
  intros [r s] H. specialize (INV _ _ H HT). cbn [fst snd] in INV. unfold fine.
  inversion INV; subst; try exact Logic.I; try assumption; try reflexivity; eauto.
  destruct H0 as [H0|H0]; [discriminate|]. injection H0 as ->. reflexivity.
Qed.

(** ** Labels *)
Definition bnd (u u' c c' : nat) (l : lab) : Prop :=
  match l with LU n => u <= n < u' | LElse n | LEnd n | LBegin n => c <= n < c' end.
Lemma nodup_app : forall (X : Type) (a b : list X), NoDup a -> NoDup b -> (forall x, In x a -> In x b -> False) -> NoDup (a ++ b).
Proof.
  induction a as [|x a IH]; intros b Na Nb D; [exact Nb|]. inversion Na; subst. cbn [app]. constructor.
  - rewrite in_app_iff. intros [H|H]; [contradiction|]. apply (D x); [left; reflexivity|exact H].
  - apply IH; try assumption. intros y Y1 Y2. apply (D y); [right; exact Y1|exact Y2].
Qed.
Lemma nodup_l : forall (X : Type) (a b : list X), NoDup (a ++ b) -> NoDup a.
Proof.
  induction a as [|x a IH]; intros b N; [constructor|]. cbn [app] in N. inversion N as [|? ? NI N']; subst. constructor; [|eapply IH; exact N'].
  intros H. apply NI, in_or_app. left. exact H.
Qed.
Lemma nodup_r : forall (X : Type) (a b : list X), NoDup (a ++ b) -> NoDup b.
Proof. induction a as [|x a IH]; intros b N; [exact N|]. cbn [app] in N. inversion N; subst. apply IH. assumption. Qed.
Lemma nodup_drop : forall (X : Type) (a b c : list X), NoDup (a ++ b ++ c) -> NoDup (a ++ c).
Proof.
  induction a as [|x a IH]; intros b c N; [eapply nodup_r; exact N|]. cbn [app] in *. inversion N as [|? ? NI N']; subst. constructor; [|eapply IH; exact N'].
  intros H. apply NI. apply in_app_or in H. destruct H as [H|H]; apply in_or_app; [left; exact H|right; apply in_or_app; right; exact H].
Qed.
Lemma labs_app : forall a b, labs (a ++ b) = labs a ++ labs b.
Proof. intros. apply flat_map_app. Qed.
Lemma labs_regs : forall dz es, labs (regs dz es) = [].
Proof. intros dz es. unfold regs. induction (filter (live dz) es) as [|e r IH]; [reflexivity|exact IH]. Qed.
Lemma labs_brs : forall (l : list (bool * nat)), labs (map (fun p => Br (LU (snd p))) l) = [].
Proof. induction l as [|e r IH]; [reflexivity|exact IH]. Qed.

(** ** Pointers and chains *)
Lemma entry_eqb_spec : forall a b, entry_eqb a b = true -> a = b.
Proof. intros [x|x|x] [y|y|y] H; cbn [entry_eqb] in H; try discriminate; apply Nat.eqb_eq in H; congruence. Qed.
Lemma same_ptr_spec : forall a b, same_ptr a b = true -> a = b.
Proof.
  induction a as [|[i e] a IH]; intros [|[j f] b] H; cbn [same_ptr] in H; try discriminate; [reflexivity|].
  apply andb_prop in H. destruct H as [H H3]. apply andb_prop in H. destruct H as [H1 H2].
  apply Nat.eqb_eq in H1. apply entry_eqb_spec in H2. apply IH in H3. congruence.
Qed.
Lemma same_ptr_refl : forall a, same_ptr a a = true.
Proof.
  induction a as [|[i e] a IH]; [reflexivity|]. cbn [same_ptr]. rewrite Nat.eqb_refl, IH.
  replace (entry_eqb e e) with true by (destruct e; cbn [entry_eqb]; rewrite Nat.eqb_refl; reflexivity). reflexivity.
Qed.
Lemma same_ptr_longer : forall d pre (r : list dfr), same_ptr (ptr (d :: pre ++ r)) (ptr r) = false.
Proof.
  intros d pre r. destruct (same_ptr _ _) eqn:E; [|reflexivity]. apply same_ptr_spec in E. apply (f_equal (@length _)) in E.
  unfold ptr in E. cbn [map length] in E. rewrite map_app, app_length, !map_length in E. lia.
Qed.
Section Dz.
Variable dz : bool.
Definition stack (l : list dfr) : stk := filter (live dz) (map ent l).
Lemma stack_ptr : forall l l', ptr l = ptr l' -> stack l = stack l'.
Proof.
  intros l l' H. unfold stack. f_equal. apply (f_equal (map snd)) in H. unfold ptr in H. rewrite !map_map in H. exact H.
Qed.
Definition vlas_of (l : list dfr) : list nat := vla_e (map ent l).

(** ** What the code of a node is *)
Variable A : list (nat * stk).
Definition ctx_ok (ctx : list jctx) (G : list (lab * stk)) : Prop :=
  forall j, In j ctx -> In (LU (j_brk j), stack (j_end j)) G /\ (j_switch j = false -> In (LU (j_cont j), stack (j_end j)) G).
Definition resolves (env : genv) (g : nat * list dfr) : Prop :=
  exists u r pre, env (fst g) = Some (u, ptr r) /\ snd g = pre ++ r.
Definition goto_typed (env : genv) (G : list (lab * stk)) (g : nat * list dfr) : Prop :=
  forall u r, env (fst g) = Some (u, ptr r) -> In (LU u, stack r) G.
Definition code_ok (u u' c c' : nat) (code : list instr) (L : list (lab * stk)) : Prop :=
  map fst L = labs code /\ NoDup (labs code) /\ (forall l, In l (labs code) -> bnd u u' c c' l) /\ c <= c'.
Definition GT (ctx : list jctx) (gts : list (nat * list dfr)) (u u' : nat) (NL : list (list nat * nat * list dfr)) (cs : list (bool * nat)) (w : option stk)
    (g : gen) (p q : option stk) : Prop :=
  forall env c, (forall x, In x gts -> resolves env x) ->
  exists code c' L, g env c = Ok (code, c') /\ code_ok u u' c c' code L /\
    (forall x, In x NL -> In (LU (snd (fst x)), stack (snd x)) L) /\
    (forall x, In x cs -> exists s, w = Some s /\ In (LU (snd x), s) L) /\
    forall G, incl L G -> ctx_ok ctx G -> (forall x, In x gts -> goto_typed env G x) -> T A G p code q.

Lemma code_app : forall u u1 u2 c c1 c2 a b La Lb, code_ok u u1 c c1 a La -> code_ok u1 u2 c1 c2 b Lb -> u <= u1 -> u1 <= u2 ->
  code_ok u u2 c c2 (a ++ b) (La ++ Lb).
Proof.
  intros u u1 u2 c c1 c2 a b La Lb (A1 & A2 & A3 & A4) (B1 & B2 & B3 & B4) U1 U2. unfold code_ok. rewrite labs_app, map_app, A1, B1.
  split; [reflexivity|]. split; [|split; [|lia]].
  - apply nodup_app; try assumption. intros l Ha Hb. apply A3 in Ha. apply B3 in Hb. destruct l; cbn [bnd] in *; lia.
  - intros l H. apply in_app_or in H. destruct H as [H|H]; [apply A3 in H|apply B3 in H]; destruct l; cbn [bnd] in *; lia.
Qed.
Lemma code_shift : forall u v c c' a L, code_ok u u c c' a L -> code_ok v v c c' a L.
Proof.
  intros u v c c' a L (A1 & A2 & A3 & A4). split; [exact A1|]. split; [exact A2|]. split; [|exact A4].
  intros l Hl. apply A3 in Hl. destruct l; cbn [bnd] in *; lia.
Qed.
Lemma gt_shift : forall ctx gts u v w w' g p q, GT ctx gts u u [] [] w g p q -> GT ctx gts v v [] [] w' g p q.
Proof.
  intros ctx gts u v w w' g p q H env c HR. destruct (H env c HR) as (a & c1 & La & E1 & K1 & N1 & C1 & T1).
  exists a, c1, La. split; [exact E1|]. split; [eapply code_shift; exact K1|]. split; [exact N1|]. split; [intros x []|exact T1].
Qed.
Lemma gt_seq : forall ctx gts u u1 u2 NL1 NL2 cs1 cs2 w g1 g2 p q r, u <= u1 -> u1 <= u2 ->
  GT ctx gts u u1 NL1 cs1 w g1 p q -> GT ctx gts u1 u2 NL2 cs2 w g2 q r -> GT ctx gts u u2 (NL2 ++ NL1) (cs1 ++ cs2) w (gseq g1 g2) p r.
Proof.
  intros ctx gts u u1 u2 NL1 NL2 cs1 cs2 w g1 g2 p q r U1 U2 H1 H2 env c HR.
  destruct (H1 env c HR) as (a & c1 & La & E1 & K1 & N1 & C1 & T1). destruct (H2 env c1 HR) as (b & c2 & Lb & E2 & K2 & N2 & C2 & T2).
  exists (a ++ b), c2, (La ++ Lb). split; [unfold gseq; rewrite E1; cbn [bind snd fst]; rewrite E2; reflexivity|].
  split; [eapply code_app; eassumption|]. split; [|split].
  - intros x H. apply in_or_app. apply in_app_or in H. destruct H as [H|H]; [right; apply N2, H|left; apply N1, H].
  - intros x H. apply in_app_or in H. destruct H as [H|H]; [destruct (C1 x H) as (s & E & I)|destruct (C2 x H) as (s & E & I)];
      exists s; (split; [exact E|]); apply in_or_app; auto.
  - intros G I CX GO. apply incl_app_inv in I. destruct I as [Ia Ib]. eapply T_app; [apply T1|apply T2]; assumption.
Qed.
Lemma gt_le : forall ctx gts u u' NL cs w g p q p' q', GT ctx gts u u' NL cs w g p q -> le p' p -> le q q' -> GT ctx gts u u' NL cs w g p' q'.
Proof.
  intros ctx gts u u' NL cs w g p q p' q' H Lp Lq env c HR. destruct (H env c HR) as (a & c1 & La & E1 & K1 & N1 & C1 & T1).
  exists a, c1, La. repeat (split; [assumption|]). intros G I CX GO. eapply T_pre; [eapply T_post; [apply T1; assumption|exact Lq]|exact Lp].
Qed.
Lemma gt_gts : forall ctx gts gts' u u' NL cs w g p q, GT ctx gts u u' NL cs w g p q -> incl gts gts' -> GT ctx gts' u u' NL cs w g p q.
Proof.
  intros ctx gts gts' u u' NL cs w g p q H I env c HR. destruct (H env c) as (a & c1 & La & E1 & K1 & N1 & C1 & T1); [intros x Hx; apply HR, I, Hx|].
  exists a, c1, La. repeat (split; [assumption|]). intros G J CX GO. apply T1; try assumption. intros x Hx. apply GO, I, Hx.
Qed.
Lemma gt_ctx : forall j ctx gts u u' NL cs w g p q, GT ctx gts u u' NL cs w g p q -> GT (j :: ctx) gts u u' NL cs w g p q.
Proof.
  intros j ctx gts u u' NL cs w g p q H env c HR. destruct (H env c HR) as (a & c1 & La & E1 & K1 & N1 & C1 & T1).
  exists a, c1, La. repeat (split; [assumption|]). intros G J CX GO. apply T1; try assumption. intros k Hk. apply CX. right. exact Hk.
Qed.
Lemma gt_wide : forall ctx gts u u' v v' NL cs w g p q, GT ctx gts u u' NL cs w g p q -> v <= u -> u' <= v' -> GT ctx gts v v' NL cs w g p q.
Proof.
  intros ctx gts u u' v v' NL cs w g p q H V1 V2 env c HR. destruct (H env c HR) as (a & c1 & La & E1 & (K1 & K2 & K3 & K4) & N1 & C1 & T1).
  exists a, c1, La. split; [exact E1|]. split; [split; [exact K1|split; [exact K2|split; [|exact K4]]]|repeat (split; [assumption|]); assumption].
  intros l Hl. apply K3 in Hl. destruct l; cbn [bnd] in *; lia.
Qed.
(** Code without labels. *)
Lemma gt_code : forall ctx gts u w code p q, labs code = [] -> (forall G, ctx_ok ctx G -> T A G p code q) -> GT ctx gts u u [] [] w (gcode code) p q.
Proof.
  intros ctx gts u w code p q E H env c HR. exists code, c, []. split; [reflexivity|]. split; [|split; [intros x []|split; [intros x []|intros G _ CX _; apply H; exact CX]]].
  unfold code_ok. rewrite E. split; [reflexivity|]. split; [constructor|]. split; [intros l []|lia].
Qed.

(** ** The pending actions *)
Fixpoint chain_ok (ctx : list jctx) (gts : list (nat * list dfr)) (l : list dfr) : Prop :=
  match l with
  | [] => True
  | d :: r => d_vla d = first_vla (map ent l) /\
      match d_kind d with KDefer _ g => GT ctx gts 0 0 [] [] None g (Some (stack r)) (Some (stack r)) | _ => True end /\ chain_ok ctx gts r
  end.
Lemma chain_gts : forall ctx gts gts' l, chain_ok ctx gts l -> incl gts gts' -> chain_ok ctx gts' l.
Proof.
  induction l as [|d r IH]; intros H I; [exact Logic.I|]. destruct H as (H1 & H2 & H3). split; [exact H1|]. split; [|apply IH; assumption].
  destruct (d_kind d); try exact Logic.I. eapply gt_gts; eassumption.
Qed.
Lemma chain_ctx : forall j ctx gts l, chain_ok ctx gts l -> chain_ok (j :: ctx) gts l.
Proof.
  induction l as [|d r IH]; intros H; [exact Logic.I|]. destruct H as (H1 & H2 & H3). split; [exact H1|]. split; [|apply IH; assumption].
  destruct (d_kind d); try exact Logic.I. apply gt_ctx. exact H2.
Qed.
Lemma first_vla_in : forall s v, first_vla s = Some v -> In v (vla_e s).
Proof.
  induction s as [|e s IH]; intros v H; [discriminate|]. cbn [first_vla] in H. cbn [vla_e flat_map].
  destruct e; cbn [app]; try (apply IH; exact H). injection H as ->. left. reflexivity.
Qed.
Lemma first_vla_live : forall s, dz = true -> first_vla (filter (live dz) s) = first_vla s.
Proof. intros s ->. induction s as [|e s IH]; [reflexivity|]. destruct e; cbn [filter live first_vla]; try exact IH. reflexivity. Qed.
Lemma set_sp_run : forall vs s, (forall v, In v vs -> first_vla s <> Some v) -> NoDup vs -> set_sp (first_vla s) (map EVla vs ++ s) = Some s.
Proof.
  induction vs as [|v vs IH]; intros s H N.
  - cbn [map app]. destruct s as [|e s]; cbn [set_sp]; [reflexivity|].
    replace (same_vla (first_vla (e :: s)) (first_vla (e :: s))) with true; [reflexivity|].
    destruct (first_vla (e :: s)); cbn [same_vla]; [rewrite Nat.eqb_refl|]; reflexivity.
  - inversion N; subst. cbn [map app set_sp first_vla].
    destruct (same_vla (Some v) (first_vla s)) eqn:E.
    + exfalso. apply (H v); [left; reflexivity|]. destruct (first_vla s); cbn [same_vla] in E; [|discriminate]. apply Nat.eqb_eq in E. congruence.
    + apply IH; [intros x Hx; apply H; right; exact Hx|assumption].
Qed.

Lemma T_sp_run : forall G vs v r, NoDup (vs ++ v :: vlas_of r) -> dz = true ->
  T A G (Some (map EVla vs ++ EVla v :: stack r)) [SetSp (first_vla (map ent r))] (Some (stack r)).
Proof.
  intros G vs v r N D. eapply T_sp; [|apply T_nil, le_refl].
  rewrite <- (first_vla_live (map ent r) D). fold (stack r).
  replace (map EVla vs ++ EVla v :: stack r) with (map EVla (vs ++ [v]) ++ stack r) by (rewrite map_app, <- app_assoc; reflexivity).
  replace (vs ++ v :: vlas_of r) with ((vs ++ [v]) ++ vlas_of r) in N by (rewrite <- app_assoc; reflexivity).
  apply set_sp_run; [|apply nodup_l in N; exact N].
  intros x Hx E. unfold stack in E. rewrite (first_vla_live _ D) in E. apply first_vla_in in E.
  clear - N Hx E. induction (vs ++ [v]) as [|y l IH]; [destruct Hx|]. cbn [app] in N. inversion N as [|? ? NI N']; subst.
  destruct Hx as [->|Hx]; [apply NI, in_or_app; right; exact E|apply IH; assumption].
Qed.
Lemma gt_defr : forall ctx gts u r pre vs, chain_ok ctx gts (pre ++ r) -> NoDup (vs ++ vlas_of (pre ++ r)) ->
  (vs = [] \/ dz = true /\ exists d p, pre = d :: p /\ exists v, d_kind d = KVla v) ->
  GT ctx gts u u [] [] None (fun env c => gen_defr dz (pre ++ r) (ptr r) env c) (Some (map EVla vs ++ stack (pre ++ r))) (Some (stack r)).
Proof.
  intros ctx gts u r. induction pre as [|d pre IH]; intros vs CO ND HV.
  { destruct HV as [->|(_ & d & p & E & _)]; [|discriminate]. intros env c HR. exists [], c, []. split.
    { cbn [app]. destruct r; cbn [gen_defr]; rewrite same_ptr_refl; reflexivity. }
    split; [|split; [intros x []|split; [intros x []|intros G _ _ _; apply T_nil, le_refl]]].
    split; [reflexivity|]. split; [constructor|]. split; [intros l []|lia]. }
  cbn [app] in *. destruct CO as (CV & CB & CR).
  assert (EV : forall v, d_kind d = KVla v -> vlas_of (d :: pre ++ r) = v :: vlas_of (pre ++ r)).
  { intros v E. unfold vlas_of, vla_e. cbn [map flat_map]. unfold ent at 1. rewrite E. reflexivity. }
  assert (EN : (forall v, d_kind d <> KVla v) -> vlas_of (d :: pre ++ r) = vlas_of (pre ++ r)).
  { intros N. unfold vlas_of, vla_e. cbn [map flat_map]. unfold ent at 1. destruct (d_kind d); try reflexivity. destruct (N v eq_refl). }
  assert (ES : stack (d :: pre ++ r) = (if live dz (ent d) then [ent d] else []) ++ stack (pre ++ r)).
  { unfold stack. cbn [map filter]. destruct (live dz (ent d)); reflexivity. }
  destruct (d_kind d) as [n g|n|v] eqn:EK.
  - assert (vs = []) by (destruct HV as [->|(_ & d' & p & E & v & E2)]; [reflexivity|injection E as -> ->; congruence]). subst vs. cbn [map app] in *.
    rewrite (EN ltac:(discriminate)) in ND. specialize (IH [] CR ND (or_introl eq_refl)). intros env c HR.
    destruct (CB env c HR) as (b & c1 & Lb & E1 & K1 & _ & _ & T1). destruct (IH env c1 HR) as (a & c2 & La & E2 & K2 & _ & _ & T2).
    exists (Run (EDefer n) :: b ++ a), c2, (Lb ++ La). split.
    { cbn [gen_defr]. rewrite same_ptr_longer, EK, E1. cbn [bind snd fst]. cbv beta in E2. rewrite E2. reflexivity. }
    split; [|split; [intros x []|split; [intros x []|]]].
    + apply (code_app u u u c c1 c2 (Run (EDefer n) :: b) a Lb La); try lia; [exact (code_shift 0 u c c1 b Lb K1)|exact K2].
    + intros G I CX GO. apply incl_app_inv in I. destruct I as [Ib Ia]. rewrite ES. unfold ent. rewrite EK. cbn [live app].
      apply T_run. eapply T_app; [apply T1|apply T2]; assumption.
  - assert (vs = []) by (destruct HV as [->|(_ & d' & p & E & v & E2)]; [reflexivity|injection E as -> ->; congruence]). subst vs. cbn [map app] in *.
    rewrite (EN ltac:(discriminate)) in ND. specialize (IH [] CR ND (or_introl eq_refl)). intros env c HR.
    destruct (IH env c HR) as (a & c2 & La & E2 & K2 & _ & _ & T2).
    exists (Run (EClean n) :: a), c2, La. split.
    { cbn [gen_defr]. rewrite same_ptr_longer, EK. cbv beta in E2. rewrite E2. reflexivity. }
    split; [exact K2|split; [intros x []|split; [intros x []|]]].
    intros G I CX GO. rewrite ES. unfold ent. rewrite EK. cbn [live app]. apply T_run. apply T2; assumption.
  - rewrite (EV v eq_refl) in ND. intros env c HR. cbn [gen_defr]. rewrite same_ptr_longer, EK.
    destruct (negb (same_ptr (ptr (pre ++ r)) (ptr r)) && _) eqn:SK.
    + apply andb_prop in SK. destruct SK as [SK1 SK2].
      destruct pre as [|d2 pre2]; [rewrite same_ptr_refl in SK1; discriminate|]. cbn [app] in SK2.
      destruct (d_kind d2) as [?n ?g|?n|v2] eqn:EK2; try discriminate.
      destruct dz eqn:ED.
      * specialize (IH (vs ++ [v]) CR). destruct IH with (env := env) (c := c) as (a & c2 & La & E2 & K2 & _ & _ & T2).
        { rewrite <- app_assoc. exact ND. } { right. split; [reflexivity|]. exists d2, pre2. split; [reflexivity|]. exists v2. exact EK2. } { exact HR. }
        exists a, c2, La. split; [exact E2|]. split; [exact K2|]. split; [intros x []|]. split; [intros x []|].
        intros G I CX GO. specialize (T2 G I CX GO). rewrite ES. unfold ent. rewrite EK. cbn [live app].
        rewrite map_app, <- app_assoc in T2. exact T2.
      * assert (vs = []) by (destruct HV as [->|(E & _)]; [reflexivity|discriminate]). subst vs.
        destruct (IH [] CR) with (env := env) (c := c) as (a & c2 & La & E2 & K2 & _ & _ & T2).
        { cbn [app] in *. inversion ND; assumption. } { left. reflexivity. } { exact HR. }
        exists a, c2, La. split; [exact E2|]. split; [exact K2|]. split; [intros x []|]. split; [intros x []|].
        intros G I CX GO. specialize (T2 G I CX GO). rewrite ES. unfold ent. rewrite EK. cbn [live app]. exact T2.
    + assert (NDr : NoDup (vlas_of (pre ++ r))) by (apply nodup_r in ND; inversion ND; assumption).
      destruct (IH [] CR NDr (or_introl eq_refl) env c HR) as (a & c2 & La & E2 & K2 & _ & _ & T2). cbv beta in E2. rewrite E2. cbn [bind fst snd].
      assert (EVL : match pre ++ r with d2 :: _ => d_vla d2 | [] => None end = first_vla (map ent (pre ++ r))).
      { destruct (pre ++ r) as [|d2 l2]; [reflexivity|]. destruct CR as (CV2 & _). exact CV2. }
      rewrite EVL. destruct dz eqn:ED.
      * eexists _, c2, La. split; [reflexivity|]. split; [exact K2|]. split; [intros x []|]. split; [intros x []|].
        intros G I CX GO. rewrite ES. unfold ent. rewrite EK. cbn [live app].
        pose proof (T_sp_run G vs v (pre ++ r) ND) as TS. rewrite ED in TS. specialize (TS eq_refl).
        eapply (T_one _ _ _ _ _ TS). apply T2; assumption.
      * assert (vs = []) by (destruct HV as [->|(E & _)]; [reflexivity|discriminate]). subst vs.
        eexists _, c2, La. split; [reflexivity|]. split; [exact K2|]. split; [intros x []|]. split; [intros x []|].
        intros G I CX GO. rewrite ES. unfold ent. rewrite EK. cbn [live app map]. apply T2; assumption.
Qed.
End Dz.
