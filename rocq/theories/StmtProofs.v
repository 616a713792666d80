(** Code of statements: labels and execution. *)
From Coq Require Import ZArith List Bool Lia.
From Verif Require Import Base BitLemmas IntSpec IntLemmas IntModel IntTyped IntProofs IntFold
  IntElab IntMain X86 CgModel CgSpec CgLemmas CgSeq CgSeq2 CgSeq3 CgInv CgTree CgGen CgMain CgHot
  StmtSpec StmtModel StmtEff StmtVoid.
Import ListNotations.
Local Open Scope Z_scope.

Scheme exec_mut := Induction for exec Sort Prop
  with loop_mut := Induction for loop Sort Prop.
Combined Scheme exec_loop_ind from exec_mut, loop_mut.

(** ** Labels *)
Definition lspec (code : list instr) (A : label -> Prop) : Prop :=
  NoDup (labels code) /\ forall l, In l (labels code) -> A l.

Lemma lspec_weak code (A B : label -> Prop) : lspec code A -> (forall l, A l -> B l) -> lspec code B.
Proof. intros [H1 H2] H. split; auto. Qed.

Lemma nodup_app (a b : list label) : NoDup a -> NoDup b -> (forall x, In x a -> In x b -> False) -> NoDup (a ++ b).
Proof.
  induction 1; cbn [app]; auto. intros Hb D. constructor.
  - rewrite in_app_iff. intros [X|X]; [contradiction|]. apply (D x); cbn [In]; auto.
  - apply IHNoDup; auto. intros y Hy. apply D. cbn [In]. auto.
Qed.

Lemma lspec_app a b (A B C : label -> Prop) : lspec a A -> lspec b B -> (forall l, A l -> B l -> False) ->
  (forall l, A l \/ B l -> C l) -> lspec (a ++ b) C.
Proof.
  intros [A1 A2] [B1 B2] D H. split.
  - rewrite labels_app. apply nodup_app; auto. intros x Hx Hy. apply (D x); auto.
  - intros l. rewrite labels_app, in_app_iff. intros [X|X]; auto.
Qed.

Definition rng (lo hi a b : Z) (l : label) : Prop := lo <= snd l < hi \/ - b <= snd l < - a.

Lemma lok_lspec lo hi a code : lok lo hi code -> lspec code (rng lo hi a a).
Proof. intros [A B]. split; [exact A|]. intros l H. left. apply B. exact H. Qed.

Lemma lspec_nil code A : labels code = [] -> lspec code A.
Proof. intros L. split; rewrite L; [constructor|intros l []]. Qed.

Lemma lspec_lab l : lspec [Lab l] (eq l).
Proof. split; cbn; [constructor; [intros []|constructor]|intros k [->|[]]; reflexivity]. Qed.

Ltac disj := let l := fresh "l" in intros l; destruct l as [? ?]; unfold rng, unique_label; cbn [snd fst];
  repeat match goal with
  | |- _ \/ _ -> _ => intros [?|?]
  | |- _ -> _ => intro
  | H : _ \/ _ |- _ => destruct H
  | H : (_, _) = (_, _) |- _ => apply pair_equal_spec in H; destruct H
  end; subst; try discriminate; try lia.

Record sext (st st' : gst) (id id' : Z) (code : list instr) : Prop := mksext {
  se_out : out st' = out st ++ code;
  se_cnt : cnt st <= cnt st';
  se_pk : peak st <= peak st';
  se_id : id <= id';
  se_lab : lspec code (rng (cnt st) (cnt st') id id') }.

Section Stm.
Variable G : genv.
Variable sym : nat -> Z.
Variable bs : reg -> Z.
Variable P : Z.
Variable V : list (ityp * nat).
Variable M0 : Z -> Z.
Variable nul : nat.
Hypothesis FR : frame_ok G bs P.
Hypothesis CO : cfg_ok (gc G).
Hypothesis HERE : loc G nul = VHere.
Hypothesis UNK : known (gc G) nul = None.
Hypothesis NUL : forall t, ~ In (t, nul) V.
Hypothesis DIS : forall t x u y, In (t, x) V -> In (u, y) V -> (t = u /\ x = y) \/
  (x <> y /\ (vaddr G sym bs x + sz (mty t) <= vaddr G sym bs y \/ vaddr G sym bs y + sz (mty u) <= vaddr G sym bs x)).
Variable f : nat.
Variable rtn : Z.
Variable rt : ityp.

Local Notation c := (gc G).
Local Notation inv := (inv G sym bs P V M0).
Local Notation vspec := (vspec G sym bs P V M0).
Local Notation gspec := (gspec G sym bs P).
Local Notation usesS := (uses_stmt V (fun x => known c x = None)).
Local Notation usesX := (uses_eff V (fun x => known c x = None)).

Lemma eff_spec a : usesX a -> forall n st st', parse_eff c a = Ok n ->
  gen_void G nul f n st = Ok st' -> vspec st st' (fun env env' => effect env a = Some env').
Proof. intros. eapply eff_ok; eauto. Qed.

Lemma gcond jc l n st st' : snd l < cnt st -> gen G f (MCond jc l) n st = Ok st' ->
  gspec st st' (fun env mem v => pre G sym env bs P mem n v /\ boolish n = true)
    (fun _ _ v j _ => j = if Bool.eqb (negb (v =? 0)) jc then Some l else None).
Proof.
  intros L H. apply gspec_of. intros env mem.
  exact (gen_ok G sym env bs P mem FR CO f (MCond jc l) n st st' H L).
Qed.

Lemma wext_sext st st' code id : wext st st' code -> sext st st' id id code.
Proof. intros [A B C D]. constructor; auto; try lia. apply lok_lspec. exact D. Qed.

Lemma sext_trans st st1 st2 a b d c1 c2 : 0 <= cnt st -> 0 <= a -> sext st st1 a b c1 -> sext st1 st2 b d c2 ->
  sext st st2 a d (c1 ++ c2).
Proof.
  intros H0 H1 [A1 A2 A3 A4 A5] [B1 B2 B3 B4 B5]. constructor; try lia.
  - rewrite B1, A1, app_assoc. reflexivity.
  - eapply lspec_app; [exact A5|exact B5|disj|disj].
Qed.

Lemma eff_ext a n st st' id : usesX a -> parse_eff c a = Ok n -> gen_void G nul f n st = Ok st' ->
  exists code, sext st st' id id code.
Proof. intros U H1 H2. destruct (eff_spec a U n st st' H1 H2) as [code [E _]]. exists code. apply wext_sext. exact E. Qed.

Lemma cond_ext jc l n st st' id : gen G f (MCond jc l) n st = Ok st' -> snd l < cnt st ->
  exists code, sext st st' id id code.
Proof. intros H L. destruct (gcond jc l n st st' L H) as [code [E _]]. exists code. apply wext_sext. exact E. Qed.

Lemma emit_sext st code id : labels code = [] -> sext st (emit code st) id id code.
Proof. intros. apply wext_sext, wext_emit. exact H. Qed.

Lemma stmt_ext s : usesS s -> forall ctx id ls id' st st', parse_stmt c rt ctx id s = Ok (ls, id') ->
  gen_stmt G nul f rtn ls st = Ok st' -> 0 <= cnt st -> 0 <= id -> exists code, sext st st' id id' code.
Proof.
  induction s; cbn [uses_stmt]; intros U ctx id ls id' st st' PS GS C0 I0; cbn [parse_stmt] in PS.
  - injection PS as <- <-. injection GS as <-. exists []. apply wext_sext, wext_refl.
  - bnd PS. injection PS as <- <-. eapply eff_ext; eauto.
  - destruct U as [U1 U2]. bnd PS. destruct a as [la ida], a0 as [lb idb]. injection PS as <- <-. cbn [fst snd gen_stmt] in *.
    bnd GS. destruct (IHs1 U1 _ _ _ _ _ _ E E1 C0 I0) as [c1 X1].
    pose proof (se_cnt _ _ _ _ _ X1). pose proof (se_id _ _ _ _ _ X1).
    destruct (IHs2 U2 _ _ _ _ _ _ E0 GS ltac:(lia) ltac:(lia)) as [c2 X2].
    exists (c1 ++ c2). eapply sext_trans; eauto.
  - destruct U as [U1 U2]. bnd PS. destruct a1 as [la ida]. injection PS as <- <-. cbn [fst snd gen_stmt count_] in *.
    bnd GS. injection GS as <-. unfold count_ in *. cbn [fst snd] in *.
    destruct (cond_ext _ _ _ _ _ id E2 ltac:(cbn; lia)) as [c1 [A1 A2 A3 A4 A5]]. cbn [cnt out peak] in *.
    destruct (IHs U2 _ _ _ _ _ _ E1 E3 ltac:(lia) I0) as [c2 [B1 B2 B3 B4 B5]].
    exists (c1 ++ c2 ++ [Lab (LElse, cnt st)]). constructor; cbn [emit out cnt peak]; try lia.
    + rewrite B1, A1, <- !app_assoc. reflexivity.
    + eapply lspec_app with (B := fun l => rng (cnt a1) (cnt a2) id ida l \/ l = (LElse, cnt st)); [exact A5| |disj|disj].
      eapply lspec_app; [exact B5|apply lspec_lab|disj|disj; auto].
  - destruct U as [U1 [U2 U3]]. bnd PS. destruct a1 as [la ida], a2 as [lb idb]. injection PS as <- <-. cbn [fst snd gen_stmt count_] in *.
    bnd GS. injection GS as <-. unfold count_ in *. cbn [fst snd] in *.
    destruct (cond_ext _ _ _ _ _ id E3 ltac:(cbn; lia)) as [c1 [A1 A2 A3 A4 A5]]. cbn [cnt out peak] in *.
    destruct (IHs1 U2 _ _ _ _ _ _ E1 E4 ltac:(lia) I0) as [c2 [B1 B2 B3 B4 B5]].
    destruct (IHs2 U3 _ _ _ _ _ _ E2 E5 ltac:(cbn; lia) ltac:(lia)) as [c3 [D1 D2 D3 D4 D5]]. cbn [emit cnt out peak] in *.
    exists (c1 ++ c2 ++ [Jmp (LEnd, cnt st); Lab (LElse, cnt st)] ++ c3 ++ [Lab (LEnd, cnt st)]).
    constructor; cbn [emit out cnt peak]; try lia.
    + rewrite D1, B1, A1, <- !app_assoc. reflexivity.
    + eapply lspec_app with (B := fun l => rng (cnt a1) (cnt a3) id idb l \/ l = (LElse, cnt st) \/ l = (LEnd, cnt st)); [exact A5| |disj|disj].
      eapply lspec_app with (B := fun l => rng (cnt a2) (cnt a3) ida idb l \/ l = (LElse, cnt st) \/ l = (LEnd, cnt st)); [exact B5| |disj|disj; auto].
      eapply lspec_app with (A := eq (LElse, cnt st)) (B := fun l => rng (cnt a2) (cnt a3) ida idb l \/ l = (LEnd, cnt st)); [apply lspec_lab| |disj|disj; auto].
      eapply lspec_app; [exact D5|apply lspec_lab|disj|disj; auto].
  - destruct U as [U1 [U2 [U3 U4]]]. bnd PS. destruct a2 as [la ida]. injection PS as <- <-. cbn [fst snd gen_stmt count_] in *.
    bnd GS. injection GS as <-. unfold count_ in *. cbn [fst snd] in *.
    destruct (eff_ext _ _ _ _ id U1 E E3) as [c1 [A1 A2 A3 A4 A5]]. cbn [cnt out peak emit] in *.
    assert (exists c2, sext (emit [Lab (LBegin, cnt st)] a2) a3 id id c2) as [c2 [B1 B2 B3 B4 B5]].
    { destruct a0 as [k|].
      - eapply cond_ext; [exact E4|]. cbn [unique_label snd emit cnt]. lia.
      - injection E4 as <-. exists []. apply wext_sext, wext_refl. }
    cbn [cnt out peak emit] in *.
    destruct (IHs U4 _ _ _ _ _ _ E2 E5 ltac:(lia) ltac:(lia)) as [c3 [D1 D2 D3 D4 D5]].
    destruct (eff_ext _ _ _ _ id U3 E1 E6) as [c4 [F1 F2 F3 F4 F5]]. cbn [cnt out peak emit] in *.
    exists (c1 ++ [Lab (LBegin, cnt st)] ++ c2 ++ c3 ++ [Lab (unique_label (id + 1))] ++ c4 ++
      [Jmp (LBegin, cnt st); Lab (unique_label id)]).
    constructor; cbn [emit out cnt peak]; try lia.
    + rewrite F1, D1, B1, A1, <- !app_assoc. reflexivity.
    + eapply lspec_app with (B := fun l => rng (cnt a2) (cnt a5) id ida l \/ l = (LBegin, cnt st)); [exact A5| |disj|disj].
      eapply lspec_app with (B := fun l => rng (cnt a2) (cnt a5) id ida l); [apply lspec_lab| |disj|disj; auto].
      eapply lspec_app with (B := fun l => rng (cnt a3) (cnt a5) id ida l); [exact B5| |disj|disj; auto].
      eapply lspec_app with (B := fun l => rng (cnt a4) (cnt a5) id (id + 2) l); [exact D5| |disj|disj; auto].
      eapply lspec_app with (B := fun l => rng (cnt a4) (cnt a5) id (id + 1) l); [apply lspec_lab| |disj|disj; auto].
      eapply lspec_app with (B := eq (unique_label id)); [exact F5| |disj|disj; auto].
      apply (lspec_lab (unique_label id)).
  - destruct U as [U1 U2]. bnd PS. destruct a as [la ida]. injection PS as <- <-. cbn [fst snd gen_stmt count_] in *.
    bnd GS. injection GS as <-. unfold count_ in *. cbn [fst snd] in *.
    destruct (IHs U1 _ _ _ _ _ _ E E2 ltac:(cbn; lia) ltac:(lia)) as [c1 [A1 A2 A3 A4 A5]]. cbn [cnt out peak emit] in *.
    destruct (cond_ext _ _ _ _ _ id E3 ltac:(cbn [snd emit cnt]; lia)) as [c2 [B1 B2 B3 B4 B5]]. cbn [cnt out peak emit] in *.
    exists ([Lab (LBegin, cnt st)] ++ c1 ++ [Lab (unique_label (id + 1))] ++ c2 ++ [Lab (unique_label id)]).
    constructor; cbn [emit out cnt peak]; try lia.
    + rewrite B1, A1, <- !app_assoc. reflexivity.
    + eapply lspec_app with (B := fun l => rng (cnt st + 1) (cnt a2) id ida l); [apply lspec_lab| |disj|disj; auto].
      eapply lspec_app with (B := fun l => rng (cnt a) (cnt a2) id (id + 2) l); [exact A5| |disj|disj; auto].
      eapply lspec_app with (B := fun l => rng (cnt a) (cnt a2) id (id + 1) l); [apply lspec_lab| |disj|disj; auto].
      eapply lspec_app; [exact B5|apply lspec_lab|disj|disj; auto].
  - destruct ctx as [[b k]|]; [|discriminate]. injection PS as <- <-. injection GS as <-. exists [Jmp b].
    apply emit_sext. reflexivity.
  - destruct ctx as [[b k]|]; [|discriminate]. injection PS as <- <-. injection GS as <-. exists [Jmp k].
    apply emit_sext. reflexivity.
  - destruct e as [e|].
    + bnd PS. injection PS as <- <-. cbn [gen_stmt] in GS. bnd GS. injection GS as <-.
      destruct (gexpr G sym bs P FR CO f _ _ _ E1) as [code [W _]]. exists (code ++ [Jmp (LRtn, rtn)]).
      eapply sext_trans; [lia|lia|apply wext_sext; exact W|apply emit_sext; reflexivity].
    + injection PS as <- <-. injection GS as <-. exists [Jmp (LRtn, rtn)]. apply emit_sext. reflexivity.
Qed.

(** ** Execution *)
Section Run.
Variable p : list instr.
Hypothesis ND : NoDup (labels p).

Local Notation find l := (find_label l p).
Local Notation steps := (steps sym p).
Local Notation at_ st := (length (out st)).

Definition pfx (st : gst) : Prop := exists post, p = out st ++ post.

Lemma pfx_w st st' code : out st' = out st ++ code -> pfx st' -> pfx st.
Proof. intros E [post H]. exists (code ++ post). rewrite H, E, app_assoc. reflexivity. Qed.

Lemma stp_trans a b d : steps a b -> steps b d -> steps a d.
Proof. induction 1; auto. intros. econstructor; eauto. Qed.

Lemma seg_run st st' code m m' : out st' = out st ++ code -> pfx st' -> run sym code None m = Some (None, m') ->
  steps (at_ st, m) (at_ st', m').
Proof.
  intros E [post H] R. rewrite E in H |- *. rewrite <- app_assoc in H. rewrite H in ND |- *.
  exact (run_steps sym code (out st) post None m m' ND R).
Qed.

Lemma seg_out st st' code m m' l k : out st' = out st ++ code -> pfx st' -> run sym code None m = Some (Some l, m') ->
  find l = Some k -> steps (at_ st, m) (k, m').
Proof.
  intros E [post H] R F. rewrite E in H. rewrite <- app_assoc in H. rewrite H in ND, F |- *.
  exact (run_steps_out sym code (out st) post None m l m' k ND R F).
Qed.

Lemma find_mid l a b : p = a ++ Lab l :: b -> find l = Some (length a).
Proof.
  intros ->. rewrite find_label_app. rewrite find_label_notin.
  - cbn [find_label]. rewrite label_eqb_refl. f_equal. lia.
  - intros H. rewrite labels_app in ND. cbn [labels] in ND. apply NoDup_remove_2 in ND. apply ND.
    apply in_or_app. left. exact H.
Qed.

Lemma lab_at st l : pfx (emit [Lab l] st) -> find l = Some (at_ st).
Proof. intros [post H]. cbn [emit out] in H. rewrite <- app_assoc in H. exact (find_mid l _ _ H). Qed.

Lemma lab_step st l m : pfx (emit [Lab l] st) -> steps (at_ st, m) (at_ (emit [Lab l] st), m).
Proof. intros H. eapply seg_run; [reflexivity|exact H|reflexivity]. Qed.

Lemma jmp_step st l m k : pfx (emit [Jmp l] st) -> find l = Some k -> steps (at_ st, m) (k, m).
Proof. intros H F. eapply (seg_out st (emit [Jmp l] st) [Jmp l]); [reflexivity|exact H|reflexivity|exact F]. Qed.

Lemma emit_emit a b st : emit (a ++ b) st = emit b (emit a st).
Proof. unfold emit. cbn [out slots peak cnt]. rewrite app_assoc. reflexivity. Qed.

Lemma eff_step a n st st' env env' m : usesX a -> parse_eff c a = Ok n -> gen_void G nul f n st = Ok st' ->
  pfx st' -> peak st' <= P -> lvar_sz G <= peak st -> inv env m -> effect env a = Some env' ->
  exists m', steps (at_ st, m) (at_ st', m') /\ inv env' m'.
Proof.
  intros U H1 H2 PF HP HL I EF. destruct (eff_spec a U n st st' H1 H2) as [code [E S]].
  destruct (S HP HL env env' m EF I) as [m' [R I']]. exists m'. split; [|exact I'].
  eapply seg_run; [apply (we_out _ _ _ E)|exact PF|exact R].
Qed.

Lemma cond_step jc l e n k st st' env m v t : uses V e -> elab c e = Ok n -> cond_cast c n = Ok k ->
  gen G f (MCond jc l) k st = Ok st' -> snd l < cnt st ->
  pfx st' -> peak st' <= P -> lvar_sz G <= peak st -> inv env m -> ceval env e = Some v -> find l = Some t ->
  exists m', steps (at_ st, m) (if Bool.eqb (negb (v =? 0)) jc then t else at_ st', m') /\ inv env m'.
Proof.
  intros U E CC H HL PF HP HB I Ev F. destruct (gcond jc l k st st' HL H) as [code [W S]].
  destruct (inv_pre G sym bs P V M0 CO env m e n v I U E Ev) as [[Wn Vn Kn Ln] Tn].
  pose proof (cond_cast_boolish G CO n k Wn CC) as BN.
  destruct (cond_cast_ok c n k CO Wn CC) as [Wk ? EV]. destruct (EV env Vn Kn) as [Vk [Kk TV]].
  destruct (TV v Tn) as [w [Tw NZ]].
  assert (PR : pre G sym env bs P (mm m) k w).
  { split; [|exact Tw]. constructor; auto. eapply cond_cast_place; eauto. }
  destruct (S HP HB env (mm m) w (conj PR BN) m (inv_good _ _ _ _ _ _ _ _ I)) as [j [m' [R [Gm ->]]]].
  exists m'. split; [|eapply inv_keep; eauto]. replace (v =? 0) with (w =? 0) by exact NZ.
  destruct (Bool.eqb (negb (w =? 0)) jc).
  - eapply seg_out; [apply (we_out _ _ _ W)|exact PF|exact R|exact F].
  - eapply seg_run; [apply (we_out _ _ _ W)|exact PF|exact R].
Qed.

Definition dest (ctx : option (label * label)) (o : ending) (st' : gst) (k : nat) (m : mach) : Prop :=
  match o with
  | Normal => k = at_ st'
  | Break => exists b d, ctx = Some (b, d) /\ find b = Some k
  | Continue => exists b d, ctx = Some (b, d) /\ find d = Some k
  | Return v => find (LRtn, rtn) = Some k /\
      match v with Some z => eqm (result_bits rt) (rg m AX) z | None => True end
  end.

Hypothesis RTN : exists k, find (LRtn, rtn) = Some k.

Definition Pexec (env : nat -> Z) (s : stmt) (env' : nat -> Z) (o : ending) : Prop :=
  forall ctx id ls id' st st', usesS s -> parse_stmt c rt ctx id s = Ok (ls, id') ->
  gen_stmt G nul f rtn ls st = Ok st' ->
  (forall b d, ctx = Some (b, d) -> exists kb kd, find b = Some kb /\ find d = Some kd) ->
  pfx st' -> 0 <= cnt st -> 0 <= id -> peak st' <= P -> lvar_sz G <= peak st ->
  forall m, inv env m -> exists k m', steps (at_ st, m) (k, m') /\ inv env' m' /\ dest ctx o st' k m'.

Definition Ploop (env : nat -> Z) (ec : option exp) (inc : eff) (body : stmt) (env' : nat -> Z) (o : ending) : Prop :=
  forall id k inc' ls id' n st0 st1 st2 st3,
  match ec with Some e => uses V e | None => True end -> usesX inc -> usesS body ->
  match ec with None => Ok None | Some e => do m <- elab c e; do k <- cond_cast c m; Ok (Some k) end = Ok k ->
  parse_eff c inc = Ok inc' ->
  parse_stmt c rt (Some (unique_label id, unique_label (id + 1))) (id + 2) body = Ok (ls, id') ->
  match k with
  | Some k => gen G f (MCond false (unique_label id)) k (emit [Lab (LBegin, n)] st0)
  | None => Ok (emit [Lab (LBegin, n)] st0)
  end = Ok st1 ->
  gen_stmt G nul f rtn ls st1 = Ok st2 ->
  gen_void G nul f inc' (emit [Lab (unique_label (id + 1))] st2) = Ok st3 ->
  pfx (emit [Jmp (LBegin, n); Lab (unique_label id)] st3) ->
  0 <= cnt st0 -> 0 <= id -> peak st3 <= P -> lvar_sz G <= peak st0 ->
  forall m, inv env m -> exists k' m', steps (at_ st0, m) (k', m') /\ inv env' m' /\
    dest None o (emit [Jmp (LBegin, n); Lab (unique_label id)] st3) k' m'.

(** One iteration of the loop: pieces and positions. *)
Record lpieces (id : Z) (ec : option exp) (inc : eff) (n : Z) (st0 st1 st2 st3 : gst) : Prop := {
  lp_beg : find (LBegin, n) = Some (at_ st0);
  lp_cont : find (unique_label (id + 1)) = Some (at_ st2);
  lp_brk : find (unique_label id) = Some (at_ (emit [Jmp (LBegin, n)] st3));
  lp_fin : forall m, steps (at_ (emit [Jmp (LBegin, n)] st3), m) (at_ (emit [Jmp (LBegin, n); Lab (unique_label id)] st3), m);
  lp_test : forall env m b, controls env ec = Some b -> inv env m ->
    exists m', steps (at_ st0, m) (if b then at_ st1 else at_ (emit [Jmp (LBegin, n)] st3), m') /\ inv env m';
  lp_inc : forall env env' m, effect env inc = Some env' -> inv env m ->
    exists m', steps (at_ st2, m) (at_ st0, m') /\ inv env' m';
  lp_pfx : pfx st2;
  lp_cnt : 0 <= cnt st1;
  lp_pk : peak st2 <= P /\ lvar_sz G <= peak st1 }.

Lemma loop_pieces ec inc body id k inc' ls id' n st0 st1 st2 st3 :
  match ec with Some e => uses V e | None => True end -> usesX inc -> usesS body ->
  match ec with None => Ok None | Some e => do m <- elab c e; do k <- cond_cast c m; Ok (Some k) end = Ok k ->
  parse_eff c inc = Ok inc' ->
  parse_stmt c rt (Some (unique_label id, unique_label (id + 1))) (id + 2) body = Ok (ls, id') ->
  match k with
  | Some k => gen G f (MCond false (unique_label id)) k (emit [Lab (LBegin, n)] st0)
  | None => Ok (emit [Lab (LBegin, n)] st0)
  end = Ok st1 ->
  gen_stmt G nul f rtn ls st1 = Ok st2 ->
  gen_void G nul f inc' (emit [Lab (unique_label (id + 1))] st2) = Ok st3 ->
  pfx (emit [Jmp (LBegin, n); Lab (unique_label id)] st3) ->
  0 <= cnt st0 -> 0 <= id -> peak st3 <= P -> lvar_sz G <= peak st0 ->
  lpieces id ec inc n st0 st1 st2 st3.
Proof.
  intros U1 U2 U3 HK HI HB G1 G2 G3 PF C0 I0 HP HL.
  assert (exists c2, sext (emit [Lab (LBegin, n)] st0) st1 id id c2) as [c2 [B1 B2 B3 _ _]].
  { destruct k as [k|].
    - eapply cond_ext; [exact G1|]. cbn [unique_label snd emit cnt]. lia.
    - injection G1 as <-. exists []. apply wext_sext, wext_refl. }
  destruct (stmt_ext body U3 _ _ _ _ _ _ HB G2 ltac:(cbn [emit cnt] in B2; lia) ltac:(lia)) as [c3 [D1 D2 D3 D4 _]].
  destruct (eff_ext _ _ _ _ id U2 HI G3) as [c4 [F1 F2 F3 _ _]].
  change [Jmp (LBegin, n); Lab (unique_label id)] with ([Jmp (LBegin, n)] ++ [Lab (unique_label id)]) in PF.
  rewrite emit_emit in PF.
  assert (P4 : pfx (emit [Jmp (LBegin, n)] st3)) by (eapply pfx_w; [|exact PF]; reflexivity).
  assert (P3 : pfx st3) by (eapply pfx_w; [|exact P4]; reflexivity).
  assert (P2 : pfx (emit [Lab (unique_label (id + 1))] st2)) by (eapply pfx_w; [exact F1|exact P3]).
  assert (P2' : pfx st2) by (eapply pfx_w; [|exact P2]; reflexivity).
  assert (P1 : pfx st1) by (eapply pfx_w; [exact D1|exact P2']).
  assert (P0 : pfx (emit [Lab (LBegin, n)] st0)) by (eapply pfx_w; [exact B1|exact P1]).
  pose proof (lab_at _ _ P0) as LB. pose proof (lab_at _ _ P2) as LC. pose proof (lab_at _ _ PF) as LK.
  cbn [emit cnt peak] in B2, B3, F2, F3.
  constructor; auto.
  - intros m. change [Jmp (LBegin, n); Lab (unique_label id)] with ([Jmp (LBegin, n)] ++ [Lab (unique_label id)]).
    rewrite emit_emit. apply lab_step. exact PF.
  - intros env m b CT I. destruct ec as [e|]; cbn [controls] in CT.
    + bnd HK. injection HK as <-. destruct (ceval env e) as [v|] eqn:Ev; [|discriminate].
      destruct (cond_step false (unique_label id) e a a0 _ _ env m v _ U1 E E0 G1 ltac:(cbn [unique_label snd emit cnt]; lia) P1
        ltac:(lia) ltac:(cbn [emit peak]; lia) I Ev LK) as [m' [S I']].
      exists m'. split; [|exact I']. eapply stp_trans; [apply lab_step; exact P0|].
      injection CT as <-. destruct (v =? 0); exact S.
    + injection HK as <-. injection G1 as <-. injection CT as <-. exists m. split; [apply lab_step; exact P0|exact I].
  - intros env env' m EF I.
    destruct (eff_step inc inc' _ _ env env' m U2 HI G3 P3 HP ltac:(cbn [emit peak]; lia) I EF) as [m' [S I']].
    exists m'. split; [|exact I']. eapply stp_trans; [apply lab_step; exact P2|]. eapply stp_trans; [exact S|].
    apply jmp_step with (l := (LBegin, n)); auto.
  - lia.
  - lia.
Qed.


Lemma do_pieces ctx id ls id' st st' body e : usesS (SDo body e) -> parse_stmt c rt ctx id (SDo body e) = Ok (ls, id') ->
  gen_stmt G nul f rtn ls st = Ok st' -> pfx st' -> 0 <= cnt st -> 0 <= id -> peak st' <= P -> lvar_sz G <= peak st ->
  exists la ida stb st1 st2,
    parse_stmt c rt (Some (unique_label id, unique_label (id + 1))) (id + 2) body = Ok (la, ida) /\
    gen_stmt G nul f rtn la stb = Ok st1 /\
    (forall m, steps (at_ st, m) (at_ stb, m)) /\
    find (LBegin, cnt st) = Some (at_ st) /\ find (unique_label (id + 1)) = Some (at_ st1) /\
    find (unique_label id) = Some (at_ st2) /\
    (forall m, steps (at_ st2, m) (at_ st', m)) /\
    pfx st1 /\ 0 <= cnt stb /\ peak st1 <= P /\ lvar_sz G <= peak stb /\
    (forall env m v, inv env m -> ceval env e = Some v ->
       exists m', steps (at_ st1, m) (if v =? 0 then at_ st2 else at_ st, m') /\ inv env m').
Proof.
  intros U PS GS PF C0 I0 HP HL. destruct U as [U1 U2].
  cbn [parse_stmt] in PS. bnd PS. destruct a as [la ida]. injection PS as <- <-.
  cbn [fst snd gen_stmt count_] in *. bnd GS. injection GS as <-. unfold count_ in *. cbn [fst snd] in *.
  destruct (stmt_ext body U1 _ _ _ _ _ _ E E2 ltac:(cbn; lia) ltac:(lia)) as [c1 [A1 A2 A3 A4 _]].
  destruct (cond_ext _ _ _ _ _ id E3 ltac:(cbn [snd emit cnt] in *; lia)) as [c2 [B1 B2 B3 _ _]].
  assert (P2 : pfx a2) by (eapply pfx_w; [|exact PF]; reflexivity).
  assert (P1' : pfx (emit [Lab (unique_label (id + 1))] a)) by (eapply pfx_w; eauto).
  assert (P1 : pfx a) by (eapply pfx_w; [|exact P1']; reflexivity).
  pose proof (pfx_w _ _ _ A1 P1) as P0.
  pose proof (lab_at _ _ P0) as LB. pose proof (lab_at _ _ P1') as LC. pose proof (lab_at _ _ PF) as LK.
  cbn [out] in LB. cbn [emit cnt peak] in A2, A3, B2, B3, HP.
  eexists la, ida, _, a, a2. split; [first [exact E|reflexivity]|]. split; [first [exact E2|reflexivity]|]. split; [intros m; exact (lab_step _ _ m P0)|].
  split; [exact LB|]. split; [exact LC|]. split; [exact LK|]. split; [intros m; apply lab_step; exact PF|].
  split; [exact P1|]. cbn [emit cnt peak]. split; [lia|]. split; [lia|]. split; [lia|].
  intros env m v I Ev.
  destruct (cond_step true _ e a0 a1 _ _ env m v _ U2 E0 E1 E3 ltac:(cbn [snd emit cnt]; lia) P2 HP ltac:(cbn [emit peak]; lia) I Ev LB) as [m' [S I']].
  exists m'. split; [|exact I']. eapply stp_trans; [apply lab_step; exact P1'|].
  destruct (v =? 0); exact S.
Qed.

Lemma ret_bits n : nty n = mty rt -> 0 <= result_bits rt <= wbits n.
Proof. intros TY. unfold wbits. rewrite TY. unfold result_bits. destruct rt; cbn [mty sz]; destruct (boolish n); cbn; lia. Qed.

Theorem exec_code : (forall env s env' o, exec rt env s env' o -> Pexec env s env' o) /\
  (forall env ec inc body env' o, loop rt env ec inc body env' o -> Ploop env ec inc body env' o).
Proof.
  apply exec_loop_ind; unfold Pexec.
  - (* skip *)
    intros env ctx id ls id' st st' U PS GS CX PF C0 I0 HP HL m I.
    cbn [parse_stmt] in PS. injection PS as <- <-. injection GS as <-. exists (at_ st), m.
    split; [constructor|]. split; [exact I|reflexivity].
  - (* expression *)
    intros env a env' EF ctx id ls id' st st' U PS GS CX PF C0 I0 HP HL m I.
    cbn [parse_stmt] in PS. bnd PS. injection PS as <- <-. cbn [gen_stmt] in GS.
    destruct (eff_step _ _ _ _ env env' m U E GS PF HP HL I EF) as [m' [S I']]. exists (at_ st'), m'.
    split; [exact S|]. split; [exact I'|reflexivity].
  - (* sequence *)
    intros env a b env1 env2 o X1 IH1 X2 IH2 ctx id ls id' st st' U PS GS CX PF C0 I0 HP HL m I.
    destruct U as [U1 U2]. cbn [parse_stmt] in PS. bnd PS. destruct a0 as [la ida], a1 as [lb idb]. injection PS as <- <-.
    cbn [fst snd gen_stmt] in *. bnd GS.
    destruct (stmt_ext a U1 _ _ _ _ _ _ E E1 C0 I0) as [c1 [A1 A2 A3 A4 _]].
    destruct (stmt_ext b U2 _ _ _ _ _ _ E0 GS ltac:(lia) ltac:(lia)) as [c2 [B1 B2 B3 B4 _]].
    destruct (IH1 ctx id la ida st a0 U1 E E1 CX ltac:(eapply pfx_w; eauto) C0 I0 ltac:(lia) HL m I) as [k [m1 [S1 [I1 D1]]]].
    cbn [dest] in D1. subst k.
    destruct (IH2 ctx ida lb idb a0 st' U2 E0 GS CX PF ltac:(lia) ltac:(lia) HP ltac:(lia) m1 I1) as [k [m2 [S2 [I2 D2]]]].
    exists k, m2. split; [eapply stp_trans; eauto|auto].
  - intros env a b env1 o X1 IH1 NO ctx id ls id' st st' U PS GS CX PF C0 I0 HP HL m I.
    destruct U as [U1 U2]. cbn [parse_stmt] in PS. bnd PS. destruct a0 as [la ida], a1 as [lb idb]. injection PS as <- <-.
    cbn [fst snd gen_stmt] in *. bnd GS.
    destruct (stmt_ext a U1 _ _ _ _ _ _ E E1 C0 I0) as [c1 [A1 A2 A3 A4 _]].
    destruct (stmt_ext b U2 _ _ _ _ _ _ E0 GS ltac:(lia) ltac:(lia)) as [c2 [B1 B2 B3 B4 _]].
    destruct (IH1 ctx id la ida st a0 U1 E E1 CX ltac:(eapply pfx_w; eauto) C0 I0 ltac:(lia) HL m I) as [k [m1 [S1 [I1 D1]]]].
    exists k, m1. split; [exact S1|]. split; [exact I1|]. destruct o; [congruence|exact D1|exact D1|exact D1].
  - (* if, taken *)
    intros env e a v env1 o Ev NZ X1 IH1 ctx id ls id' st st' U PS GS CX PF C0 I0 HP HL m I.
    destruct U as [U1 U2]. cbn [parse_stmt] in PS. bnd PS. destruct a2 as [la ida]. injection PS as <- <-.
    cbn [fst snd gen_stmt count_] in *. bnd GS. injection GS as <-. unfold count_ in *. cbn [fst snd] in *.
    destruct (cond_ext _ _ _ _ _ id E2 ltac:(cbn; lia)) as [c1 [A1 A2 A3 _ _]]. cbn [cnt out peak] in *.
    destruct (stmt_ext a U2 _ _ _ _ _ _ E1 E3 ltac:(lia) I0) as [c2 [B1 B2 B3 B4 _]].
    assert (P3 : pfx a3) by (eapply pfx_w; [|exact PF]; reflexivity).
    assert (P2 : pfx a2) by (eapply pfx_w; eauto).
    pose proof (lab_at _ _ PF) as LE.
    destruct (cond_step false _ e a0 a1 _ _ env m v _ U1 E E0 E2 ltac:(cbn; lia) P2 ltac:(cbn [emit peak] in HP; lia) HL I Ev LE) as [m1 [S1 I1]].
    replace (v =? 0) with false in S1 by (symmetry; apply Z.eqb_neq; exact NZ). cbn [negb Bool.eqb] in S1.
    destruct (IH1 ctx id la ida a2 a3 U2 E1 E3 CX P3 ltac:(lia) I0 ltac:(cbn [emit peak] in HP; lia) ltac:(lia) m1 I1) as [k [m2 [S2 [I2 D2]]]].
    destruct o; cbn [dest] in D2 |- *;
      try (exists k, m2; split; [eapply stp_trans; [exact S1|exact S2]|split; [exact I2|exact D2]]; fail).
    subst k. eexists _, m2. split; [|split; [exact I2|reflexivity]].
    eapply stp_trans; [exact S1|]. eapply stp_trans; [exact S2|]. apply lab_step. exact PF.
  - (* if, not taken *)
    intros env e a Ev ctx id ls id' st st' U PS GS CX PF C0 I0 HP HL m I.
    destruct U as [U1 U2]. cbn [parse_stmt] in PS. bnd PS. destruct a2 as [la ida]. injection PS as <- <-.
    cbn [fst snd gen_stmt count_] in *. bnd GS. injection GS as <-. unfold count_ in *. cbn [fst snd] in *.
    destruct (cond_ext _ _ _ _ _ id E2 ltac:(cbn; lia)) as [c1 [A1 A2 A3 _ _]]. cbn [cnt out peak] in *.
    destruct (stmt_ext a U2 _ _ _ _ _ _ E1 E3 ltac:(lia) I0) as [c2 [B1 B2 B3 B4 _]].
    assert (P3 : pfx a3) by (eapply pfx_w; [|exact PF]; reflexivity).
    assert (P2 : pfx a2) by (eapply pfx_w; eauto).
    pose proof (lab_at _ _ PF) as LE.
    destruct (cond_step false _ e a0 a1 _ _ env m 0 _ U1 E E0 E2 ltac:(cbn; lia) P2 ltac:(cbn [emit peak] in HP; lia) HL I Ev LE) as [m1 [S1 I1]].
    eexists _, m1. split; [|split; [exact I1|reflexivity]]. eapply stp_trans; [exact S1|]. apply lab_step. exact PF.
  - (* if else, first *)
    intros env e a b v env1 o Ev NZ X1 IH1 ctx id ls id' st st' U PS GS CX PF C0 I0 HP HL m I.
    destruct U as [U1 [U2 U3]]. cbn [parse_stmt] in PS. bnd PS. destruct a2 as [la ida], a3 as [lb idb]. injection PS as <- <-.
    cbn [fst snd gen_stmt count_] in *. bnd GS. injection GS as <-. unfold count_ in *. cbn [fst snd] in *.
    destruct (cond_ext _ _ _ _ _ id E3 ltac:(cbn; lia)) as [c1 [A1 A2 A3 _ _]]. cbn [cnt out peak] in *.
    destruct (stmt_ext a U2 _ _ _ _ _ _ E1 E4 ltac:(lia) I0) as [c2 [B1 B2 B3 B4 _]].
    destruct (stmt_ext b U3 _ _ _ _ _ _ E2 E5 ltac:(cbn; lia) ltac:(lia)) as [c3 [D1 D2 D3 D4 _]]. cbn [emit cnt peak] in D2, D3.
    assert (P4 : pfx a4) by (eapply pfx_w; [|exact PF]; reflexivity).
    change [Jmp (LEnd, cnt st); Lab (LElse, cnt st)] with ([Jmp (LEnd, cnt st)] ++ [Lab (LElse, cnt st)]) in *.
    rewrite emit_emit in *.
    assert (P3' : pfx (emit [Lab (LElse, cnt st)] (emit [Jmp (LEnd, cnt st)] a3))) by (eapply pfx_w; eauto).
    assert (P3'' : pfx (emit [Jmp (LEnd, cnt st)] a3)) by (eapply pfx_w; [|exact P3']; reflexivity).
    assert (P3 : pfx a3) by (eapply pfx_w; [|exact P3'']; reflexivity).
    assert (P2 : pfx a2) by (eapply pfx_w; eauto).
    pose proof (lab_at _ _ P3') as LE. pose proof (lab_at _ _ PF) as LN. cbn [emit peak] in HP.
    destruct (cond_step false _ e a0 a1 _ _ env m v _ U1 E E0 E3 ltac:(cbn; lia) P2 ltac:(lia) HL I Ev LE) as [m1 [S1 I1]].
    replace (v =? 0) with false in S1 by (symmetry; apply Z.eqb_neq; exact NZ). cbn [negb Bool.eqb] in S1.
    destruct (IH1 ctx id la ida a2 a3 U2 E1 E4 CX P3 ltac:(lia) I0 ltac:(lia) ltac:(lia) m1 I1) as [k [m2 [S2 [I2 Q2]]]].
    destruct o; cbn [dest] in Q2 |- *;
      try (exists k, m2; split; [eapply stp_trans; [exact S1|exact S2]|split; [exact I2|exact Q2]]; fail).
    subst k. eexists _, m2. split; [|split; [exact I2|reflexivity]].
    eapply stp_trans; [exact S1|]. eapply stp_trans; [exact S2|].
    eapply stp_trans; [eapply jmp_step; [exact P3''|exact LN]|]. apply lab_step. exact PF.
  - (* if else, second *)
    intros env e a b env1 o Ev X1 IH1 ctx id ls id' st st' U PS GS CX PF C0 I0 HP HL m I.
    destruct U as [U1 [U2 U3]]. cbn [parse_stmt] in PS. bnd PS. destruct a2 as [la ida], a3 as [lb idb]. injection PS as <- <-.
    cbn [fst snd gen_stmt count_] in *. bnd GS. injection GS as <-. unfold count_ in *. cbn [fst snd] in *.
    destruct (cond_ext _ _ _ _ _ id E3 ltac:(cbn; lia)) as [c1 [A1 A2 A3 _ _]]. cbn [cnt out peak] in *.
    destruct (stmt_ext a U2 _ _ _ _ _ _ E1 E4 ltac:(lia) I0) as [c2 [B1 B2 B3 B4 _]].
    destruct (stmt_ext b U3 _ _ _ _ _ _ E2 E5 ltac:(cbn; lia) ltac:(lia)) as [c3 [D1 D2 D3 D4 _]]. cbn [emit cnt peak] in D2, D3.
    assert (P4 : pfx a4) by (eapply pfx_w; [|exact PF]; reflexivity).
    change [Jmp (LEnd, cnt st); Lab (LElse, cnt st)] with ([Jmp (LEnd, cnt st)] ++ [Lab (LElse, cnt st)]) in *.
    rewrite emit_emit in *.
    assert (P3' : pfx (emit [Lab (LElse, cnt st)] (emit [Jmp (LEnd, cnt st)] a3))) by (eapply pfx_w; eauto).
    assert (P3'' : pfx (emit [Jmp (LEnd, cnt st)] a3)) by (eapply pfx_w; [|exact P3']; reflexivity).
    assert (P3 : pfx a3) by (eapply pfx_w; [|exact P3'']; reflexivity).
    assert (P2 : pfx a2) by (eapply pfx_w; eauto).
    pose proof (lab_at _ _ P3') as LE. pose proof (lab_at _ _ PF) as LN. cbn [emit peak] in HP.
    destruct (cond_step false _ e a0 a1 _ _ env m 0 _ U1 E E0 E3 ltac:(cbn; lia) P2 ltac:(lia) HL I Ev LE) as [m1 [S1 I1]].
    cbn [Z.eqb negb Bool.eqb] in S1.
    destruct (IH1 ctx ida lb idb _ a4 U3 E2 E5 CX P4 ltac:(cbn [emit cnt]; lia) ltac:(lia) ltac:(lia) ltac:(cbn [emit peak]; lia) m1 I1) as [k [m2 [S2 [I2 Q2]]]].
    assert (S3 : steps (at_ st, m) (k, m2)).
    { eapply stp_trans; [exact S1|]. eapply stp_trans; [apply lab_step; exact P3'|exact S2]. }
    destruct o; cbn [dest] in Q2 |- *; try (exists k, m2; split; [exact S3|split; [exact I2|exact Q2]]; fail).
    subst k. eexists _, m2. split; [|split; [exact I2|reflexivity]].
    eapply stp_trans; [exact S3|]. apply lab_step. exact PF.
  - (* for *)
    intros env i ec inc body env1 env2 o EI X1 IH1 ctx id ls id' st st' U PS GS CX PF C0 I0 HP HL m I.
    destruct U as [U1 [U2 [U3 U4]]]. cbn [parse_stmt] in PS. bnd PS. destruct a2 as [la ida]. injection PS as <- <-.
    cbn [fst snd gen_stmt count_] in *. bnd GS. injection GS as <-. unfold count_ in *. cbn [fst snd] in *.
    destruct (eff_ext _ _ _ _ id U1 E E3) as [c1 [A1 A2 A3 _ _]]. cbn [cnt out peak] in *.
    cbn [emit peak] in HP.
    pose proof (loop_pieces ec inc body id a0 a1 la ida (cnt st) a2 a3 a4 a5 U2 U3 U4 E0 E1 E2 E4 E5 E6 PF ltac:(lia) I0 ltac:(exact HP) ltac:(lia)) as LP.
    assert (exists c2, sext (emit [Lab (LBegin, cnt st)] a2) a3 id id c2) as [c2 [B1 B2 B3 _ _]].
    { destruct a0 as [k|].
      - eapply cond_ext; [exact E4|]. cbn [unique_label snd emit cnt]. lia.
      - injection E4 as <-. exists []. apply wext_sext, wext_refl. }
    cbn [emit out cnt peak] in B1, B2, B3.
    destruct (stmt_ext body U4 _ _ _ _ _ _ E2 E5 ltac:(lia) ltac:(lia)) as [c3 [D1 D2 D3 D4 _]].
    assert (P2 : pfx a2).
    { eapply pfx_w; [|eapply pfx_w; [exact D1|exact (lp_pfx _ _ _ _ _ _ _ _ LP)]]. rewrite B1, <- app_assoc. reflexivity. }
    destruct (eff_step i a _ _ env env1 m U1 E E3 P2 ltac:(pose proof (lp_pk _ _ _ _ _ _ _ _ LP); lia) HL I EI) as [m1 [S1 I1]].
    cbn [out] in S1.
    destruct (IH1 id a0 a1 la ida (cnt st) a2 a3 a4 a5 U2 U3 U4 E0 E1 E2 E4 E5 E6 PF ltac:(lia) I0 HP ltac:(lia) m1 I1) as [k [m2 [S2 [I2 Q2]]]].
    exists k, m2. split; [eapply stp_trans; eauto|]. split; [exact I2|].
    destruct o; cbn [dest] in Q2 |- *; try exact Q2; destruct Q2 as [? [? [X _]]]; discriminate X.
  - (* do, break *)
    intros env body e env1 X1 IH1 ctx id ls id' st st' U PS GS CX PF C0 I0 HP HL m I.
    destruct (do_pieces ctx id ls id' st st' body e U PS GS PF C0 I0 HP HL) as
      [la [ida [stb [st1 [st2 [HB [G1 [K1 [K2 [K3 [K4 [K5 [K6 [K7 [K8 [K9 K10]]]]]]]]]]]]]]]].
    destruct U as [U1 U2].
    destruct (IH1 _ _ la ida _ st1 U1 HB G1 ltac:(intros b d Q; injection Q as <- <-; eauto) K6 K7 ltac:(lia) K8 K9 m I) as [k [m1 [S1 [I1 [b [d [Q F]]]]]]].
    injection Q as <- <-. rewrite K4 in F. injection F as <-.
    exists (at_ st'), m1. split; [|split; [exact I1|reflexivity]].
    eapply stp_trans; [apply K1|]. eapply stp_trans; [exact S1|]. apply K5.
  - (* do, return *)
    intros env body e env1 v X1 IH1 ctx id ls id' st st' U PS GS CX PF C0 I0 HP HL m I.
    destruct (do_pieces ctx id ls id' st st' body e U PS GS PF C0 I0 HP HL) as
      [la [ida [stb [st1 [st2 [HB [G1 [K1 [K2 [K3 [K4 [K5 [K6 [K7 [K8 [K9 K10]]]]]]]]]]]]]]]].
    destruct U as [U1 U2].
    destruct (IH1 _ _ la ida _ st1 U1 HB G1 ltac:(intros b d Q; injection Q as <- <-; eauto) K6 K7 ltac:(lia) K8 K9 m I) as [k [m1 [S1 [I1 Q]]]].
    exists k, m1. split; [|split; [exact I1|exact Q]]. eapply stp_trans; [apply K1|exact S1].
  - (* do, end *)
    intros env body e env1 o X1 IH1 GO Ev ctx id ls id' st st' U PS GS CX PF C0 I0 HP HL m I.
    destruct (do_pieces ctx id ls id' st st' body e U PS GS PF C0 I0 HP HL) as
      [la [ida [stb [st1 [st2 [HB [G1 [K1 [K2 [K3 [K4 [K5 [K6 [K7 [K8 [K9 K10]]]]]]]]]]]]]]]].
    destruct U as [U1 U2].
    destruct (IH1 _ _ la ida _ st1 U1 HB G1 ltac:(intros b d Q; injection Q as <- <-; eauto) K6 K7 ltac:(lia) K8 K9 m I) as [k [m1 [S1 [I1 Q]]]].
    assert (k = at_ st1).
    { destruct GO as [-> | ->]; [exact Q|]. destruct Q as [b [d [Q F]]]. injection Q as <- <-. rewrite K3 in F. congruence. }
    subst k. destruct (K10 env1 m1 0 I1 Ev) as [m2 [S2 I2]]. cbn [Z.eqb] in S2.
    exists (at_ st'), m2. split; [|split; [exact I2|reflexivity]].
    eapply stp_trans; [apply K1|]. eapply stp_trans; [exact S1|]. eapply stp_trans; [exact S2|]. apply K5.
  - (* do, again *)
    intros env body e env1 o v env2 o' X1 IH1 GO Ev NZ X2 IH2 ctx id ls id' st st' U PS GS CX PF C0 I0 HP HL m I.
    destruct (do_pieces ctx id ls id' st st' body e U PS GS PF C0 I0 HP HL) as
      [la [ida [stb [st1 [st2 [HB [G1 [K1 [K2 [K3 [K4 [K5 [K6 [K7 [K8 [K9 K10]]]]]]]]]]]]]]]].
    pose proof U as [U1 U2].
    destruct (IH1 _ _ la ida _ st1 U1 HB G1 ltac:(intros b d Q; injection Q as <- <-; eauto) K6 K7 ltac:(lia) K8 K9 m I) as [k [m1 [S1 [I1 Q]]]].
    assert (k = at_ st1).
    { destruct GO as [-> | ->]; [exact Q|]. destruct Q as [b [d [Q F]]]. injection Q as <- <-. rewrite K3 in F. congruence. }
    subst k. destruct (K10 env1 m1 v I1 Ev) as [m2 [S2 I2]].
    replace (v =? 0) with false in S2 by (symmetry; apply Z.eqb_neq; exact NZ).
    destruct (IH2 ctx id ls id' st st' U PS GS CX PF C0 I0 HP HL m2 I2) as [k [m3 [S3 [I3 Q3]]]].
    exists k, m3. split; [|split; [exact I3|exact Q3]].
    eapply stp_trans; [apply K1|]. eapply stp_trans; [exact S1|]. eapply stp_trans; [exact S2|exact S3].
  - (* break *)
    intros env ctx id ls id' st st' U PS GS CX PF C0 I0 HP HL m I.
    cbn [parse_stmt] in PS. destruct ctx as [[b d]|]; [|discriminate]. injection PS as <- <-. injection GS as <-.
    destruct (CX b d eq_refl) as [kb [kd [Fb Fd]]]. exists kb, m. split; [eapply jmp_step; eauto|].
    split; [exact I|]. exists b, d. auto.
  - (* continue *)
    intros env ctx id ls id' st st' U PS GS CX PF C0 I0 HP HL m I.
    cbn [parse_stmt] in PS. destruct ctx as [[b d]|]; [|discriminate]. injection PS as <- <-. injection GS as <-.
    destruct (CX b d eq_refl) as [kb [kd [Fb Fd]]]. exists kd, m. split; [eapply jmp_step; eauto|].
    split; [exact I|]. exists b, d. auto.
  - (* return *)
    intros env ctx id ls id' st st' U PS GS CX PF C0 I0 HP HL m I.
    cbn [parse_stmt] in PS. injection PS as <- <-. injection GS as <-. destruct RTN as [kr Fr].
    exists kr, m. split; [eapply jmp_step; eauto|]. split; [exact I|]. split; [exact Fr|exact Logic.I].
  - intros env e v Ev ctx id ls id' st st' U PS GS CX PF C0 I0 HP HL m I. cbn [uses_stmt] in U.
    cbn [parse_stmt] in PS. bnd PS. injection PS as <- <-. cbn [gen_stmt] in GS. bnd GS. injection GS as <-. destruct RTN as [kr Fr].
    destruct (gexpr G sym bs P FR CO f _ _ _ E1) as [code [W S]].
    assert (EC : elab c (ECast rt e) = Ok a0) by (cbn [elab]; rewrite E; exact E0).
    assert (PR : pre G sym env bs P (mm m) a0 (conv rt v)).
    { eapply (inv_pre G sym bs P V M0 CO env m (ECast rt e)); eauto. cbn [ceval]. rewrite Ev. reflexivity. }
    destruct (S HP HL env (mm m) (conv rt v) PR m (inv_good _ _ _ _ _ _ _ _ I)) as [j [m1 [R [Gm [-> Q]]]]].
    exists kr, m1. split; [|split; [eapply inv_keep; eauto|]].
    + eapply stp_trans; [eapply seg_run; [apply (we_out _ _ _ W)|eapply pfx_w; [|exact PF]; reflexivity|exact R]|].
      eapply jmp_step; eauto.
    + split; [exact Fr|]. eapply eqm_le; [apply ret_bits|exact Q].
      pose proof I as [_ A _]. exact (er_ty _ _ _ _ (uses_elab G sym bs P V env (mm m) A CO (ECast rt e) a0 U EC)).
  - (* loop, end *)
    intros env ec inc body CT id k inc' ls id' n st0 st1 st2 st3 U1 U2 U3 HK HI HB G1 G2 G3 PF C0 I0 HP HL m I.
    pose proof (loop_pieces ec inc body id k inc' ls id' n st0 st1 st2 st3 U1 U2 U3 HK HI HB G1 G2 G3 PF C0 I0 HP HL) as [L1 L2 L3 L4 L5 L6 L7 L8 L9].
    destruct (L5 env m false CT I) as [m1 [S1 I1]]. eexists _, m1.
    split; [|split; [exact I1|reflexivity]]. eapply stp_trans; [exact S1|apply L4].
  - intros env ec inc body env1 CT X1 IH1 id k inc' ls id' n st0 st1 st2 st3 U1 U2 U3 HK HI HB G1 G2 G3 PF C0 I0 HP HL m I.
    pose proof (loop_pieces ec inc body id k inc' ls id' n st0 st1 st2 st3 U1 U2 U3 HK HI HB G1 G2 G3 PF C0 I0 HP HL) as [L1 L2 L3 L4 L5 L6 L7 L8 L9].
    destruct (L5 env m true CT I) as [m1 [S1 I1]].
    destruct (IH1 _ _ ls id' st1 st2 U3 HB G2 ltac:(intros b d Q; injection Q as <- <-; eauto) L7 L8 ltac:(lia) ltac:(lia) ltac:(lia) m1 I1) as [k' [m2 [S2 [I2 [b [d [Q F]]]]]]].
    injection Q as <- <-. rewrite L3 in F. injection F as <-. eexists _, m2. split; [|split; [exact I2|reflexivity]].
    eapply stp_trans; [exact S1|]. eapply stp_trans; [exact S2|apply L4].
  - intros env ec inc body env1 v CT X1 IH1 id k inc' ls id' n st0 st1 st2 st3 U1 U2 U3 HK HI HB G1 G2 G3 PF C0 I0 HP HL m I.
    pose proof (loop_pieces ec inc body id k inc' ls id' n st0 st1 st2 st3 U1 U2 U3 HK HI HB G1 G2 G3 PF C0 I0 HP HL) as [L1 L2 L3 L4 L5 L6 L7 L8 L9].
    destruct (L5 env m true CT I) as [m1 [S1 I1]].
    destruct (IH1 _ _ ls id' st1 st2 U3 HB G2 ltac:(intros b d Q; injection Q as <- <-; eauto) L7 L8 ltac:(lia) ltac:(lia) ltac:(lia) m1 I1) as [k' [m2 [S2 [I2 Q]]]].
    exists k', m2. split; [eapply stp_trans; eauto|]. split; [exact I2|exact Q].
  - intros env ec inc body env1 o env2 env3 o' CT X1 IH1 GO EF X2 IH2 id k inc' ls id' n st0 st1 st2 st3 U1 U2 U3 HK HI HB G1 G2 G3 PF C0 I0 HP HL m I.
    pose proof (loop_pieces ec inc body id k inc' ls id' n st0 st1 st2 st3 U1 U2 U3 HK HI HB G1 G2 G3 PF C0 I0 HP HL) as [L1 L2 L3 L4 L5 L6 L7 L8 L9].
    destruct (L5 env m true CT I) as [m1 [S1 I1]].
    destruct (IH1 _ _ ls id' st1 st2 U3 HB G2 ltac:(intros b d Q; injection Q as <- <-; eauto) L7 L8 ltac:(lia) ltac:(lia) ltac:(lia) m1 I1) as [k' [m2 [S2 [I2 Q]]]].
    assert (k' = at_ st2).
    { destruct GO as [-> | ->]; [exact Q|]. destruct Q as [b [d [Q F]]]. injection Q as <- <-. rewrite L2 in F. congruence. }
    subst k'. destruct (L6 env1 env2 m2 EF I2) as [m3 [S3 I3]].
    destruct (IH2 id k inc' ls id' n st0 st1 st2 st3 U1 U2 U3 HK HI HB G1 G2 G3 PF C0 I0 HP HL m3 I3) as [k' [m4 [S4 [I4 Q4]]]].
    exists k', m4. split; [|split; [exact I4|exact Q4]].
    eapply stp_trans; [exact S1|]. eapply stp_trans; [exact S2|]. eapply stp_trans; [exact S3|exact S4].
Qed.
End Run.

End Stm.
