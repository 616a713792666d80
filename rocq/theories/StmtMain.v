(** Main results about the code of statements. *)
From Coq Require Import ZArith List Bool Lia.
From Verif Require Import Base BitLemmas IntSpec IntLemmas IntModel IntTyped IntProofs IntFold
  IntElab IntMain X86 CgModel CgSpec CgLemmas CgSeq CgSeq2 CgSeq3 CgInv CgTree CgGen CgMain CgHot
  StmtSpec StmtModel StmtPlace StmtEff StmtVoid StmtProofs.
Import ListNotations.
Local Open Scope Z_scope.

Section Main.
Variable G : genv.
Variable sym : nat -> Z.
Variable V : list (ityp * nat).
Variable nul : nat.
Hypothesis CO : forall a b, same (gc G) a b = true -> a = b.
Hypothesis SV : saved (lptr G).
Hypothesis HERE : loc G nul = VHere.
Hypothesis UNK : known (gc G) nul = None.

Lemma held_vars bs P env mem :
  held G sym bs mem (bs (lptr G) - P) (bs (lptr G) - lvar_sz G) V env <-> vars_ok G sym bs P V env mem.
Proof.
  unfold held, vars_ok. split; intros H t x Hx; destruct (H t x Hx) as [A [B C]].
  - split; [exact A|]. split; [|exact B]. cbn [stored] in C. destruct C as [C1 [C2 C3]].
    unfold leafv, tysize. rewrite <- isize_sz. split; [exact C1|]. split; [exact C2|exact C3].
  - split; [exact A|]. split; [exact C|]. cbn [stored]. destruct B as [C1 [C2 C3]].
    unfold tysize in C3. rewrite <- isize_sz in C2, C3. split; [exact C1|]. split; [exact C2|exact C3].
Qed.

Lemma held_nul bs mem lo hi env : held G sym bs mem lo hi V env -> forall t, ~ In (t, nul) V.
Proof.
  intros H t Ht. destruct (H t nul Ht) as [_ [_ [A _]]]. unfold addressable in A. rewrite HERE in A. exact A.
Qed.

Lemma around_nodup pre code post lo hi a b : lspec code (rng lo hi a b) ->
  labels_around (pre ++ post) lo hi a b -> NoDup (labels (pre ++ code ++ post)).
Proof.
  intros [A B] [C D]. rewrite labels_app in C, D. rewrite !labels_app.
  assert (X : forall l, In l (labels code) -> ~ In l (labels pre ++ labels post)).
  { intros l I1 I2. apply B in I1. apply D in I2. unfold rng in I1. lia. }
  revert C X. generalize (labels pre), (labels post), (labels code), A. clear. intros p q c A C X.
  induction p as [|x p IH]; cbn [app] in *.
  - apply nodup_app; auto.
  - inversion C; subst. constructor.
    + intros I1. apply in_app_iff in I1. destruct I1 as [I1|I1]; [apply H1; apply in_app_iff; auto|].
      apply in_app_iff in I1. destruct I1 as [I1|I1]; [apply (X x I1); left; reflexivity|apply H1; apply in_app_iff; auto].
    + apply IH; auto. intros l I1 I2. apply (X l I1). right. exact I2.
Qed.

Variable f : nat.
Variable rtn : Z.
Variable rt : ityp.

Theorem stmt_code s ls id id' st st' env m post k :
  0 <= lvar_sz G <= peak st -> 0 <= rg m (lptr G) < 2 ^ 64 -> peak st' <= rg m (lptr G) ->
  0 <= cnt st -> 0 <= id ->
  uses_stmt V (fun x => known (gc G) x = None) s ->
  separate G sym (rg m) V ->
  held G sym (rg m) (mm m) (rg m (lptr G) - peak st') (rg m (lptr G) - lvar_sz G) V env ->
  parse_stmt (gc G) rt None id s = Ok (ls, id') -> gen_stmt G nul f rtn ls st = Ok st' ->
  labels_around (out st ++ post) (cnt st) (cnt st') id id' ->
  find_label (LRtn, rtn) (out st' ++ post) = Some k ->
  forall env' o, exec rt env s env' o ->
  exists k' m', continues o (length (out st')) k = Some k' /\
    steps sym (out st' ++ post) (length (out st), m) (k', m') /\
    held G sym (rg m) (mm m') (rg m (lptr G) - peak st') (rg m (lptr G) - lvar_sz G) V env' /\
    returned rt o (rg m' AX) /\
    (forall r, saved r -> rg m' r = rg m r) /\
    (forall a, a < rg m (lptr G) - peak st' \/ rg m (lptr G) - lvar_sz G <= a ->
       ~ of_variable G sym (rg m) V a -> mm m' a = mm m a).
Proof.
  intros HL HB HP C0 I0 U SEP HD PS GS LA FR env' o EX.
  set (P := peak st') in *. set (bs := rg m) in *.
  pose proof (held_nul _ _ _ _ _ HD) as NUL.
  assert (DIS : forall t x u y, In (t, x) V -> In (u, y) V -> (t = u /\ x = y) \/
    (x <> y /\ (CgInv.vaddr G sym bs x + sz (mty t) <= CgInv.vaddr G sym bs y \/
                CgInv.vaddr G sym bs y + sz (mty u) <= CgInv.vaddr G sym bs x))).
  { intros t x u y Hx Hy. rewrite <- !isize_sz. exact (SEP t x u y Hx Hy). }
  assert (XT : forall Q, 0 <= lvar_sz G -> frame_ok G bs Q -> exists code, sext st st' id id' code).
  { intros Q _ F. eapply stmt_ext with (P := Q) (sym := sym) (bs := bs); eauto. }
  assert (PK : peak st <= P).
  { destruct (XT 0 ltac:(lia) ltac:(split; [exact SV|unfold lpv; subst bs P; lia])) as [code [_ _ X _ _]]. exact X. }
  assert (F : frame_ok G bs P) by (split; [exact SV|unfold lpv; subst bs P; lia]).
  destruct (XT P ltac:(lia) F) as [code X].
  assert (ND : NoDup (labels (out st' ++ post))).
  { rewrite (se_out _ _ _ _ _ X), <- app_assoc. eapply around_nodup; [apply (se_lab _ _ _ _ _ X)|exact LA]. }
  destruct (exec_code G sym bs P V (mm m) nul F CO HERE UNK NUL DIS f rtn rt (out st' ++ post) ND ltac:(eauto)) as [EC _].
  assert (IV : inv G sym bs P V (mm m) env m).
  { constructor; auto. apply held_vars. exact HD. }
  destruct (EC env s env' o EX None id ls id' st st' U PS GS ltac:(discriminate) ltac:(exists post; reflexivity)
    C0 I0 ltac:(subst P; lia) ltac:(lia) m IV) as [k' [m' [S [[I1 I2 I3] D]]]].
  exists k', m'.
  assert (E : continues o (length (out st')) k = Some k' /\ returned rt o (rg m' AX)).
  { destruct o as [| | |v]; cbn [dest continues returned] in *.
    - split; [congruence|exact Logic.I].
    - destruct D as [? [? [D _]]]. discriminate.
    - destruct D as [? [? [D _]]]. discriminate.
    - destruct D as [D1 D2]. split; [congruence|]. destruct v; exact D2. }
  destruct E as [E1 E2]. split; [exact E1|]. split; [exact S|]. split; [apply held_vars; exact I2|].
  split; [exact E2|]. split; [exact I1|]. intros a Ha Hn. apply I3; [exact Ha|].
  intros [t [x [A1 [A2 A3]]]]. apply Hn. exists t, x. rewrite isize_sz. auto.
Qed.

(** The labels of a statement's code are distinct. *)
Theorem stmt_labels s ls id id' st st' regs :
  0 <= lvar_sz G -> 0 <= regs (lptr G) < 2 ^ 64 -> 0 <= cnt st -> 0 <= id ->
  uses_stmt V (fun x => known (gc G) x = None) s -> (forall t, ~ In (t, nul) V) ->
  separate G sym regs V ->
  parse_stmt (gc G) rt None id s = Ok (ls, id') -> gen_stmt G nul f rtn ls st = Ok st' ->
  exists code, out st' = out st ++ code /\ NoDup (labels code) /\
    forall l, In l (labels code) -> cnt st <= snd l < cnt st' \/ - id' <= snd l < - id.
Proof.
  intros HL HR C0 I0 U NUL SEP PS GS.
  assert (F : frame_ok G regs 0) by (split; [exact SV|unfold lpv; lia]).
  assert (DIS : forall t x u y, In (t, x) V -> In (u, y) V -> (t = u /\ x = y) \/
    (x <> y /\ (CgInv.vaddr G sym regs x + sz (mty t) <= CgInv.vaddr G sym regs y \/
                CgInv.vaddr G sym regs y + sz (mty u) <= CgInv.vaddr G sym regs x))).
  { intros t x u y Hx Hy. rewrite <- !isize_sz. exact (SEP t x u y Hx Hy). }
  destruct (stmt_ext G sym regs 0 V (fun _ => 0) nul F CO HERE UNK NUL DIS f rtn rt s U None id ls id' st st' PS GS C0 I0) as [code [A _ _ _ [B C]]].
  exists code. auto.
Qed.
End Main.
