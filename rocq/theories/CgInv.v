(** Invariants of generated code: what a piece of code may change, how temporaries are
    saved and restored, and how pieces compose. *)
From Coq Require Import ZArith List Bool Lia.
From Verif Require Import Base BitLemmas IntSpec IntLemmas IntModel IntTyped IntProofs IntFold
  IntElab X86 CgModel CgLemmas CgSeq CgSeq2 CgSeq3.
Import ListNotations.
Local Open Scope Z_scope.

(** ** Slots *)
Definition bumpm (g s : nat) (l : list slot) : list slot :=
  match l with
  | [] => []
  | x :: r => mkslot (s_kind x) (Nat.max (s_gp x) g) (Nat.max (s_st x) s) (s_loc x) :: r
  end.

Lemma bumpm_0 l : bumpm 0 0 l = l.
Proof. destruct l as [|[k a b c] l]; cbn; rewrite ?Nat.max_0_r; reflexivity. Qed.
Lemma bumpm_bumpm g s g' s' l : bumpm g s (bumpm g' s' l) = bumpm (Nat.max g' g) (Nat.max s' s) l.
Proof. destruct l as [|[k a b c] l]; cbn; rewrite ?Nat.max_assoc; reflexivity. Qed.
Lemma bump_gp g s l : bump SL_GP g s l = bumpm (g + 1) s l.
Proof. destruct l; cbn [bump bumpm]; rewrite ?Nat.add_0_r; reflexivity. Qed.
Lemma bump_st g s l : bump SL_ST g s l = bumpm g (s + 1) l.
Proof. destruct l; cbn [bump bumpm]; rewrite ?Nat.add_0_r; reflexivity. Qed.

(** ** Labels with numbers in [lo, hi) *)
Definition lok (lo hi : Z) (code : list instr) : Prop :=
  NoDup (labels code) /\ forall l, In l (labels code) -> lo <= snd l < hi.

Lemma lok_nil lo hi c : labels c = [] -> lok lo hi c.
Proof. intros E. unfold lok. rewrite E. split; [constructor|intros ? []]. Qed.

Lemma NoDup_app_intro {A} (a b : list A) : NoDup a -> NoDup b -> (forall x, In x a -> ~ In x b) -> NoDup (a ++ b).
Proof.
  induction 1 as [|x a Hx Ha IH]; intros Hb D; [exact Hb|]. cbn [app]. constructor.
  - rewrite in_app_iff. intros [H|H]; [contradiction|]. apply (D x); [left; reflexivity|exact H].
  - apply IH; auto. intros y Hy. apply D. right. exact Hy.
Qed.

Lemma lok_app lo mid hi a b : lo <= mid -> mid <= hi -> lok lo mid a -> lok mid hi b -> lok lo hi (a ++ b).
Proof.
  intros L1 L2 [A1 A2] [B1 B2]. split; rewrite labels_app.
  - apply NoDup_app_intro; auto. intros x Hx Hy. apply A2 in Hx. apply B2 in Hy. lia.
  - intros l H. apply in_app_iff in H. destruct H as [H|H]; [apply A2 in H|apply B2 in H]; lia.
Qed.

Lemma lok_plain lo hi a b : lok lo hi a -> labels b = [] -> lok lo hi (a ++ b).
Proof. unfold lok. rewrite labels_app. intros H ->. rewrite app_nil_r. exact H. Qed.
Lemma lok_plain_l lo hi a b : lok lo hi b -> labels a = [] -> lok lo hi (a ++ b).
Proof. unfold lok. rewrite labels_app. intros H ->. exact H. Qed.

Lemma lok_notin lo hi c l : lok lo hi c -> snd l < lo -> ~ In l (labels c).
Proof. intros [_ H] L I. apply H in I. lia. Qed.

Lemma upd_mid {A} (a b : list A) x y : upd (a ++ x :: b) (length a) y = a ++ y :: b.
Proof. induction a as [|z a IH]; [reflexivity|]. cbn [app length upd]. f_equal. exact IH. Qed.

Lemma tmp_not_callee i r : callee r -> tmpreg i <> r.
Proof. intros [-> | [-> | ->]]; destruct i as [|[|[|[|[|]]]]]; discriminate. Qed.
Lemma tmp_not_scratch i : tmpreg i <> AX /\ tmpreg i <> CX /\ tmpreg i <> DX.
Proof. destruct i as [|[|[|[|[|]]]]]; repeat split; discriminate. Qed.
Lemma tmpreg_inj i j : (i < 6)%nat -> (j < 6)%nat -> tmpreg i = tmpreg j -> i = j.
Proof.
  intros A B. destruct i as [|[|[|[|[|[|]]]]]]; try lia; destruct j as [|[|[|[|[|[|]]]]]]; try lia;
  intros H; try discriminate; reflexivity.
Qed.
Lemma tmpreg_istmp i : istmp (tmpreg i).
Proof. unfold istmp. destruct i as [|[|[|[|[|]]]]]; cbn; tauto. Qed.

Section Inv.
Variable G : genv.
Variable sym : nat -> Z.
Variable env : nat -> Z.
Variable bs : reg -> Z.
Variable P : Z.
Variable mem0 : Z -> Z.

Definition lpv : Z := bs (lptr G).

(** The frame of the function: the base register of locals is callee-saved and the area
    of temporaries fits in the address space. *)
Definition frame_ok : Prop :=
  callee (lptr G) /\ 0 <= lpv < 2 ^ 64 /\ P <= lpv /\ 0 <= lvar_sz G.
Hypothesis FR : frame_ok.

(** Address of an object. *)
Definition vaddr (x : nat) : Z :=
  match loc G x with VLoc r o => (bs r + o) mod 2 ^ 64 | VGlob s _ => sym s | VHere => 0 end.
Definition vloc_ok (x : nat) : Prop :=
  match loc G x with
  | VLoc r _ => callee r
  | VGlob s rip => 0 <= sym s < 2 ^ 64 /\ (pic G = false -> sym s < 2 ^ 32)
  | VHere => False
  end.

(** [k] bytes at [a] are disjoint from the area of temporaries. *)
Definition outside (a k : Z) : Prop :=
  a + k <= 2 ^ 64 /\ (a + k <= lpv - P \/ lpv - lvar_sz G <= a).

Definition leafv (t : ty) (x : nat) : Prop :=
  vloc_ok x /\ outside (vaddr x) (sz t) /\
  loadn (tysize t) (vaddr x) mem0 = env x mod 2 ^ (8 * sz t).
Definition leafb (t : ty) (w off : Z) (x : nat) : Prop :=
  vloc_ok x /\ 0 <= moff G x < 2 ^ 31 /\
  outside ((vaddr x + moff G x) mod 2 ^ 64) (sz t) /\ ~ bf_bad t w off /\
  env x = field_value (ity t) w off (loadn (tysize t) ((vaddr x + moff G x) mod 2 ^ 64) mem0).

(** Nodes whose generated code leaves 0 or 1 in the whole of %rax. *)
Definition boolish (n : node) : bool :=
  match n with
  | NCmp _ _ _ | NLogAnd _ _ | NLogOr _ _ | NNot _ => true
  | _ => is_bool (nty n)
  end.

(** Trees as the parser leaves them: conditions are boolean, objects are in memory. *)
Fixpoint place (n : node) : Prop :=
  match n with
  | NNum _ _ => True
  | NVar t x => leafv t x
  | NBit t w off x => leafb t w off x
  | NPos _ a | NNeg _ a | NBitNot _ a | NCast _ a => place a
  | NNot a => boolish a = true /\ place a
  | NBin _ _ a b | NShl _ a b | NShr _ a b | NSar _ a b | NCmp _ a b | NComma _ a b => place a /\ place b
  | NLogAnd a b | NLogOr a b => boolish a = true /\ boolish b = true /\ place a /\ place b
  | NCond _ c a b => boolish c = true /\ place c /\ place a /\ place b
  end.

Record cgok (n : node) : Prop := mkcgok {
  ck_wt : wtn n; ck_v : venv env n; ck_k : kenv (gc G) env n; ck_p : place n }.

(** Number of low bits of %rax that carry the value. *)
Definition wbits (n : node) : Z := if (sz (nty n) =? 8) || boolish n then 64 else 32.

(** ** Machine invariants *)
Definition good (m : mach) : Prop :=
  (forall r, callee r -> rg m r = bs r) /\
  forall a, a < lpv - P \/ lpv - lvar_sz G <= a -> mm m a = mem0 a.

(** Area of temporaries used by a piece of code. *)
Definition zlo (st : gst) : Z := if reuse G then lvar_sz G else peak st.
Definition zhi (st' : gst) (s : nat) : Z := if reuse G then lvar_sz G + 8 * Z.of_nat s else peak st'.

Record keep (st st' : gst) (g s : nat) (m m' : mach) : Prop := mkkeep {
  kp_c : forall r, callee r -> rg m' r = rg m r;
  kp_t : forall i, (g <= i < 6)%nat -> rg m' (tmpreg i) = rg m (tmpreg i);
  kp_m : forall a, a < lpv - zhi st' s \/ lpv - zlo st <= a -> mm m' a = mm m a
}.

Record ext (st st' : gst) (code : list instr) (g s : nat) : Prop := mkext {
  ex_out : out st' = out st ++ code;
  ex_sl : slots st' = bumpm g s (slots st);
  ex_g : (g <= 6)%nat;
  ex_cnt : cnt st <= cnt st';
  ex_pk : peak st <= peak st';
  ex_st : reuse G = true -> s = 0%nat \/ lvar_sz G + 8 * Z.of_nat s <= peak st';
  ex_lok : lok (cnt st) (cnt st') code
}.

(** A piece of code with its effect, for every situation described by a value [v]. *)
(** [hspec] has a condition [H] on the state in which the piece is entered. *)
Definition hsem (H : mach -> Prop) (st st' : gst) (code : list instr) (g s : nat)
  (pre : Z -> Prop) (Q : Z -> option label -> mach -> Prop) : Prop :=
  peak st' <= P -> lvar_sz G <= peak st -> forall v, pre v -> forall m, good m -> H m ->
  exists j m', run sym code None m = Some (j, m') /\ keep st st' g s m m' /\ Q v j m'.

Definition hspec (H : mach -> Prop) (st st' : gst) (pre : Z -> Prop) (Q : Z -> option label -> mach -> Prop) : Prop :=
  exists code g s, ext st st' code g s /\ hsem H st st' code g s pre Q.

Definition sem (st st' : gst) (code : list instr) (g s : nat)
  (pre : Z -> Prop) (Q : Z -> option label -> mach -> Prop) : Prop :=
  peak st' <= P -> lvar_sz G <= peak st -> forall v, pre v -> forall m, good m ->
  exists j m', run sym code None m = Some (j, m') /\ keep st st' g s m m' /\ Q v j m'.

Definition spec (st st' : gst) (pre : Z -> Prop) (Q : Z -> option label -> mach -> Prop) : Prop :=
  exists code g s, ext st st' code g s /\ sem st st' code g s pre Q.

Lemma spec_h st st' preA QA : spec st st' preA QA <-> hspec (fun _ => True) st st' preA QA.
Proof.
  split; intros [c [g [s [E SM]]]]; exists c, g, s; (split; [exact E|]).
  - intros HP HL v Hv m Hm _. exact (SM HP HL v Hv m Hm).
  - intros HP HL v Hv m Hm. exact (SM HP HL v Hv m Hm Logic.I).
Qed.

Lemma keep_refl st st' g s m : keep st st' g s m m.
Proof. constructor; auto. Qed.

Lemma pres_keep st st' g s m m' : pres m m' -> keep st st' g s m m'.
Proof.
  intros [A B]. constructor.
  - intros r C. apply callee_not in C. apply A; tauto.
  - intros i _. pose proof (tmp_not_scratch i). apply A; tauto.
  - intros. rewrite B. reflexivity.
Qed.

Lemma keep_good st st' code g s m m' : ext st st' code g s -> peak st' <= P -> lvar_sz G <= peak st ->
  good m -> keep st st' g s m m' -> good m'.
Proof.
  intros E H1 H2 [A B] [K1 K2 K3]. split.
  - intros r C. rewrite K1, A by auto. reflexivity.
  - intros a Ha. rewrite <- B by auto. apply K3. unfold zhi, zlo. destruct (reuse G) eqn:RU.
    + destruct (ex_st _ _ _ _ _ E RU) as [-> | ?]; lia.
    + lia.
Qed.

Lemma pres_good m m' : good m -> pres m m' -> good m'.
Proof.
  intros [A B] [C D]. split.
  - intros r H. rewrite C; [auto|..]; apply callee_not in H; tauto.
  - intros. rewrite D. auto.
Qed.

Lemma keep_trans st st1 st2 c1 c2 g1 s1 g2 s2 m m1 m2 :
  ext st st1 c1 g1 s1 -> ext st1 st2 c2 g2 s2 ->
  keep st st1 g1 s1 m m1 -> keep st1 st2 g2 s2 m1 m2 ->
  keep st st2 (Nat.max g1 g2) (Nat.max s1 s2) m m2.
Proof.
  intros E1 E2 [A1 A2 A3] [B1 B2 B3]. pose proof (ex_pk _ _ _ _ _ E1). pose proof (ex_pk _ _ _ _ _ E2).
  constructor.
  - intros. rewrite B1, A1; auto.
  - intros i Hi. rewrite B2, A2 by lia. reflexivity.
  - unfold zhi, zlo in *. intros a Ha. rewrite B3, A3; [reflexivity|..]; destruct (reuse G); lia.
Qed.

Lemma keep_weak st st' st1 st1' g s g' s' m m' : (g <= g')%nat -> (s <= s')%nat ->
  peak st1 <= peak st -> peak st' <= peak st1' ->
  keep st st' g s m m' -> keep st1 st1' g' s' m m'.
Proof.
  intros Lg Ls L1 L2 [A B C]. constructor; auto.
  - intros i Hi. apply B. lia.
  - intros a Ha. apply C. unfold zhi, zlo in *. destruct (reuse G); lia.
Qed.

Lemma ext_refl st : ext st st [] 0 0.
Proof.
  constructor; try lia; auto.
  - rewrite app_nil_r. reflexivity.
  - rewrite bumpm_0. reflexivity.
  - apply lok_nil. reflexivity.
Qed.

Lemma ext_trans st st1 st2 c1 c2 g1 s1 g2 s2 :
  ext st st1 c1 g1 s1 -> ext st1 st2 c2 g2 s2 ->
  ext st st2 (c1 ++ c2) (Nat.max g1 g2) (Nat.max s1 s2).
Proof.
  intros [A1 A2 A3 A4 A5 A6 A7] [B1 B2 B3 B4 B5 B6 B7]. constructor; try lia.
  - rewrite B1, A1, app_assoc. reflexivity.
  - rewrite B2, A2, bumpm_bumpm. reflexivity.
  - intros RU. specialize (A6 RU). specialize (B6 RU). lia.
  - eapply lok_app; eauto.
Qed.

Lemma ext_emit st st1 c code g s : ext st st1 c g s -> labels code = [] ->
  ext st (emit code st1) (c ++ code) g s.
Proof.
  intros [A1 A2 A3 A4 A5 A6 A7] L. constructor; cbn [emit out slots cnt peak]; auto.
  - rewrite A1, app_assoc. reflexivity.
  - apply lok_plain; auto.
Qed.

(** ** Composition *)
Definition plainq (Q : mach -> Prop) : option label -> mach -> Prop := fun j m => j = None /\ Q m.

Lemma hspec_emit (H : mach -> Prop) st st1 preA QA code (pre : Z -> Prop) (Q : Z -> option label -> mach -> Prop) :
  hspec H st st1 preA QA -> labels code = [] ->
  (forall v, pre v -> exists va, preA va /\ forall j m, good m -> QA va j m -> j = None /\
     exists j' m', run sym code None m = Some (j', m') /\ pres m m' /\ Q v j' m') ->
  hspec H st (emit code st1) pre Q.
Proof using G sym bs P mem0.
  clear env FR. intros [c [g [s [E SM]]]] L HH. exists (c ++ code), g, s. split; [apply ext_emit; auto|].
  intros HP HL v Hv m Hm Hh. destruct (HH v Hv) as [va [PA HQ]].
  destruct (SM HP HL va PA m Hm Hh) as [j [m1 [R1 [K1 Q1]]]].
  pose proof (keep_good _ _ _ _ _ _ _ E HP HL Hm K1) as Gm.
  destruct (HQ j m1 Gm Q1) as [-> [j' [m' [R2 [P2 Q2]]]]].
  exists j', m'. rewrite run_app, R1. split; [exact R2|]. split; [|exact Q2].
  destruct K1 as [A B C]. destruct P2 as [P2 P3]. constructor.
  - intros r Hr. rewrite P2, A; auto; apply callee_not in Hr; tauto.
  - intros i Hi. pose proof (tmp_not_scratch i). rewrite P2, B; tauto || auto.
  - intros a Ha. rewrite P3. apply C. exact Ha.
Qed.

Lemma hspec_code (H : mach -> Prop) st code (pre : Z -> Prop) (Q : Z -> option label -> mach -> Prop) : labels code = [] ->
  (forall v, pre v -> forall m, good m -> H m -> exists j' m', run sym code None m = Some (j', m') /\ pres m m' /\ Q v j' m') ->
  hspec H st (emit code st) pre Q.
Proof.
  intros L HH. exists code, 0%nat, 0%nat. split; [apply (ext_emit st st [] code); [apply ext_refl|exact L]|].
  intros HP HL v Hv m Hm Hh. destruct (HH v Hv m Hm Hh) as [j [m' [R' [P' Q']]]].
  exists j, m'. split; [exact R'|]. split; [apply pres_keep; exact P'|exact Q'].
Qed.

Lemma hspec_weak (HA H : mach -> Prop) st st' preA QA (pre : Z -> Prop) (Q : Z -> option label -> mach -> Prop) :
  hspec HA st st' preA QA ->
  (forall v, pre v -> exists va, preA va /\ (forall m, good m -> H m -> HA m) /\ forall j m, good m -> QA va j m -> Q v j m) ->
  hspec H st st' pre Q.
Proof.
  intros [c [g [s [E SM]]]] HH. exists c, g, s. split; auto. intros HP HL v Hv m Hm Hh.
  destruct (HH v Hv) as [va [PA [HA' HQ]]]. destruct (SM HP HL va PA m Hm (HA' m Hm Hh)) as [j [m1 [R1 [K1 Q1]]]].
  exists j, m1. repeat split; try apply K1; auto. apply HQ; auto.
  eapply keep_good; eauto.
Qed.

Lemma hspec_seq (HA HB : mach -> Prop) st st1 st2 preA QA preB QB (pre : Z -> Prop) (Q : Z -> mach -> Prop) :
  hspec HA st st1 preA (fun v => plainq (QA v)) -> hspec HB st1 st2 preB (fun v => plainq (QB v)) ->
  (forall v, pre v -> exists va, preA va /\ forall m, good m -> QA va m ->
     HB m /\ exists vb, preB vb /\ forall m', good m' -> QB vb m' -> Q v m') ->
  hspec HA st st2 pre (fun v => plainq (Q v)).
Proof.
  intros [c1 [g1 [s1 [E1 S1]]]] [c2 [g2 [s2 [E2 S2]]]] HH.
  pose proof (ext_trans _ _ _ _ _ _ _ _ _ E1 E2) as E.
  exists (c1 ++ c2), (Nat.max g1 g2), (Nat.max s1 s2). split; [exact E|].
  intros HP HL v Hv m Hm Hh. destruct (HH v Hv) as [va [PA HQ]].
  pose proof (ex_pk _ _ _ _ _ E1). pose proof (ex_pk _ _ _ _ _ E2).
  destruct (S1 ltac:(lia) HL va PA m Hm Hh) as [j [m1 [R1 [K1 [-> Q1]]]]].
  pose proof (keep_good _ _ _ _ _ _ _ E1 ltac:(lia) HL Hm K1) as G1.
  destruct (HQ m1 G1 Q1) as [H1 [vb [PB HQ2]]].
  destruct (S2 HP ltac:(lia) vb PB m1 G1 H1) as [j2 [m2 [R2 [K2 [-> Q2]]]]].
  exists None, m2. rewrite run_app, R1. split; [exact R2|]. split; [eapply keep_trans; eauto|].
  split; [reflexivity|]. apply HQ2; auto. eapply keep_good; [exact E2| | |exact G1|exact K2]; lia.
Qed.

Lemma spec_emit st st1 preA QA code (pre : Z -> Prop) (Q : Z -> option label -> mach -> Prop) :
  spec st st1 preA QA -> labels code = [] ->
  (forall v, pre v -> exists va, preA va /\ forall j m, good m -> QA va j m -> j = None /\
     exists j' m', run sym code None m = Some (j', m') /\ pres m m' /\ Q v j' m') ->
  spec st (emit code st1) pre Q.
Proof using G sym bs P mem0.
  clear env FR. intros [c [g [s [E S]]]] L H. exists (c ++ code), g, s. split; [apply ext_emit; auto|].
  intros HP HL v Hv m Hm. destruct (H v Hv) as [va [PA HQ]].
  destruct (S HP HL va PA m Hm) as [j [m1 [R1 [K1 Q1]]]].
  pose proof (keep_good _ _ _ _ _ _ _ E HP HL Hm K1) as Gm.
  destruct (HQ j m1 Gm Q1) as [-> [j' [m' [R2 [P2 Q2]]]]].
  exists j', m'. rewrite run_app, R1. split; [exact R2|]. split; [|exact Q2].
  destruct K1 as [A B C]. destruct P2 as [P2 P3]. constructor.
  - intros r Hr. rewrite P2, A; auto; apply callee_not in Hr; tauto.
  - intros i Hi. pose proof (tmp_not_scratch i). rewrite P2, B; tauto || auto.
  - intros a Ha. rewrite P3. apply C. exact Ha.
Qed.

Lemma spec_code st code (pre : Z -> Prop) (Q : Z -> option label -> mach -> Prop) : labels code = [] ->
  (forall v, pre v -> forall m, good m -> exists j' m', run sym code None m = Some (j', m') /\ pres m m' /\ Q v j' m') ->
  spec st (emit code st) pre Q.
Proof.
  intros L H. eapply (spec_emit st st pre (fun v j m => j = None)); auto.
  - exists [], 0%nat, 0%nat. split; [apply ext_refl|]. intros HP HL v Hv m Hm. exists None, m.
    split; [reflexivity|]. split; [apply keep_refl|reflexivity].
  - intros v Hv. exists v. split; [exact Hv|]. intros j m Hm ->. split; [reflexivity|]. apply H; auto.
Qed.

Lemma spec_weak st st' preA QA (pre : Z -> Prop) (Q : Z -> option label -> mach -> Prop) :
  spec st st' preA QA ->
  (forall v, pre v -> exists va, preA va /\ forall j m, good m -> QA va j m -> Q v j m) ->
  spec st st' pre Q.
Proof.
  intros [c [g [s [E S]]]] H. exists c, g, s. split; auto. intros HP HL v Hv m Hm.
  destruct (H v Hv) as [va [PA HQ]]. destruct (S HP HL va PA m Hm) as [j [m1 [R1 [K1 Q1]]]].
  exists j, m1. repeat split; try apply K1; auto. apply HQ; auto.
  eapply keep_good; eauto.
Qed.

Lemma spec_false st st' preA QA (pre : Z -> Prop) (Q : Z -> option label -> mach -> Prop) :
  spec st st' preA QA -> (forall v, ~ pre v) -> spec st st' pre Q.
Proof.
  intros [c [g [s [E S]]]] H. exists c, g, s. split; auto. intros HP HL v Hv. destruct (H v Hv).
Qed.

Lemma spec_absurd st (pre : Z -> Prop) (Q : Z -> option label -> mach -> Prop) :
  (forall v, ~ pre v) -> spec st st pre Q.
Proof.
  intros H. exists [], 0%nat, 0%nat. split; [apply ext_refl|]. intros HP HL v Hv. destruct (H v Hv).
Qed.

Lemma hspec_nop (H : mach -> Prop) st (pre : Z -> Prop) (Q : Z -> mach -> Prop) :
  (forall v m, pre v -> good m -> H m -> Q v m) -> hspec H st st pre (fun v => plainq (Q v)).
Proof.
  intros HH. exists [], 0%nat, 0%nat. split; [apply ext_refl|]. intros HP HL v Hv m Hm Hh.
  exists None, m. split; [reflexivity|]. split; [apply keep_refl|]. split; [reflexivity|]. auto.
Qed.

Lemma spec_seq st st1 st2 preA QA preB QB (pre : Z -> Prop) (Q : Z -> option label -> mach -> Prop) :
  spec st st1 preA QA -> spec st1 st2 preB QB ->
  (forall v, pre v -> exists va, preA va /\ forall j m, good m -> QA va j m ->
     match j with
     | None => exists vb, preB vb /\ forall j' m', good m' -> QB vb j' m' -> Q v j' m'
     | Some l => snd l < cnt st1 /\ Q v (Some l) m
     end) ->
  spec st st2 pre Q.
Proof.
  intros [c1 [g1 [s1 [E1 S1]]]] [c2 [g2 [s2 [E2 S2]]]] H.
  pose proof (ext_trans _ _ _ _ _ _ _ _ _ E1 E2) as E.
  exists (c1 ++ c2), (Nat.max g1 g2), (Nat.max s1 s2). split; [exact E|].
  intros HP HL v Hv m Hm. destruct (H v Hv) as [va [PA HQ]].
  pose proof (ex_pk _ _ _ _ _ E1). pose proof (ex_pk _ _ _ _ _ E2).
  destruct (S1 ltac:(lia) HL va PA m Hm) as [j [m1 [R1 [K1 Q1]]]].
  pose proof (keep_good _ _ _ _ _ _ _ E1 ltac:(lia) HL Hm K1) as G1.
  specialize (HQ j m1 G1 Q1). destruct j as [l|].
  - destruct HQ as [L HQ]. exists (Some l), m1. rewrite run_app, R1. split; [|split].
    + apply run_skip. eapply lok_notin; [apply (ex_lok _ _ _ _ _ E2)|exact L].
    + eapply keep_trans; eauto. apply keep_refl.
    + exact HQ.
  - destruct HQ as [vb [PB HQ]].
    destruct (S2 HP ltac:(lia) vb PB m1 G1) as [j2 [m2 [R2 [K2 Q2]]]].
    exists j2, m2. rewrite run_app, R1. split; [exact R2|]. split; [eapply keep_trans; eauto|].
    apply HQ; auto. eapply keep_good; [exact E2| | |exact G1|exact K2]; lia.
Qed.

(** ** Saving the first operand while the second one is computed *)
Lemma getr_range s r m : 0 <= getr s r m < 2 ^ nbits s.
Proof. apply mod_bound. pose proof (nbits_pos s). lia. Qed.

Lemma gsize_big b : big (gsize b). Proof. unfold big. destruct b; auto. Qed.

Lemma hspec_push_pop (HA HB : mach -> Prop) src st st1 st2 st3 preA QA preB QB r64 dest must r tail (pre : Z -> Prop) (Q : Z -> mach -> Prop) :
  hspec HA st st1 preA (fun v => plainq (QA v)) -> hspec HB (push st1) st2 preB (fun v => plainq (QB v)) ->
  pop_from G src r64 dest must st2 = Ok (r, st3) -> labels tail = [] ->
  (must = true /\ dest = AX) \/ (must = false /\ dest = DI) ->
  (forall v, pre v -> exists va vb, preA va /\ preB vb /\
     (forall m1 m2, good m1 -> good m2 -> QA va m1 -> (forall q, (forall i, q <> tmpreg i) -> rg m2 q = rg m1 q) -> HB m2) /\
     forall m1 m3 m4, QA va m1 -> QB vb m3 -> good m1 -> good m3 -> (must = true -> r = AX) -> (must = false -> istmp r) ->
       getr (gsize r64) r m4 = getr (gsize r64) src m1 ->
       (forall q, q <> r -> rg m4 q = rg m3 q) -> mm m4 = mm m3 ->
       exists m', run sym tail None m4 = Some (None, m') /\ presr r m4 m' /\ Q v m') ->
  hspec HA st (emit tail st3) pre (fun v => plainq (Q v)).
Proof using G sym bs P mem0 FR.
  clear env. intros [c1 [g1 [s1 [E1 S1]]]] [c2 [g2 [s2 [E2 S2]]]] PO LT MD H.
  destruct FR as [FC [FL [FP FV]]].
  set (sz_ := gsize r64) in *.
  assert (Bs : big sz_) by apply gsize_big.
  assert (SL2 : slots st2 = mkslot SL_GP g2 s2 (length (out st1)) :: slots st1).
  { rewrite (ex_sl _ _ _ _ _ E2). reflexivity. }
  assert (O2 : out st2 = out st1 ++ Nop :: c2).
  { rewrite (ex_out _ _ _ _ _ E2). cbn [push out]. rewrite <- app_assoc. reflexivity. }
  pose proof (ex_pk _ _ _ _ _ E1) as PK1. pose proof (ex_pk _ _ _ _ _ E2) as PK2. cbn [push peak] in PK2.
  pose proof (ex_cnt _ _ _ _ _ E1) as CN1. pose proof (ex_cnt _ _ _ _ _ E2) as CN2. cbn [push cnt] in CN2.
  pose proof (ex_g _ _ _ _ _ E1) as LG1. pose proof (ex_g _ _ _ _ _ E2) as LG2.
  assert (LK2 : lok (cnt st1) (cnt st2) c2) by apply (ex_lok _ _ _ _ _ E2).
  unfold pop_from, pop_tmpstack in PO. rewrite SL2 in PO. cbn [s_kind s_gp s_st s_loc] in PO.
  change (match SL_GP with SL_GP => if (GP_SLOTS <=? g2)%nat then SL_ST else SL_GP | SL_ST => SL_ST end)
    with (if (GP_SLOTS <=? g2)%nat then SL_ST else SL_GP) in PO. fold sz_ in PO.
  destruct (Nat.leb_spec GP_SLOTS g2) as [LG|LG].
  - (* spilled to memory *)
    assert (g2 = 6)%nat by (unfold GP_SLOTS in LG; lia). subst g2.
    set (bot := if reuse G then lvar_sz G + (Z.of_nat s2 + 1) * 8 else peak st2 + 8).
    set (pk := if reuse G then Z.max (peak st2) bot else bot).
    assert (exists rs, r = dest /\
       st3 = mkgst (out st1 ++ Mov None (R sz_ src) (M (BReg (lptr G)) (- bot)) :: c2 ++ rs)
              (bumpm 6 (s2 + 1) (slots st1)) pk (cnt st2) /\
       rs = [Mov None (M (BReg (lptr G)) (- bot)) (R sz_ dest)]) as [rs [-> [E3 ERS]]].
    { unfold pk, bot in *. rewrite bump_st in PO. unfold insrtln, emit in PO.
      destruct (reuse G); cbn [bind s_kind s_loc out slots peak cnt] in PO; injection PO as <- <-;
      eexists; (split; [reflexivity|]); (split; [|reflexivity]); rewrite O2, upd_mid, <- app_assoc; reflexivity. }
    assert (PKL : peak st2 <= pk) by (unfold pk, bot; destruct (reuse G); lia).
    assert (E3' : ext st (emit tail st3) (c1 ++ (Mov None (R sz_ src) (M (BReg (lptr G)) (- bot)) :: c2 ++ rs) ++ tail)
               (Nat.max g1 6) (Nat.max s1 (s2 + 1))).
    { rewrite E3. constructor; cbn [emit out slots cnt peak]; try lia.
      - rewrite (ex_out _ _ _ _ _ E1), <- !app_assoc. reflexivity.
      - rewrite (ex_sl _ _ _ _ _ E1), bumpm_bumpm. reflexivity.
      - intros RU. pose proof (ex_st _ _ _ _ _ E1 RU). unfold pk, bot. rewrite RU. lia.
      - rewrite app_assoc. apply lok_plain; auto.
        eapply lok_app; [exact CN1| |apply (ex_lok _ _ _ _ _ E1)|]; [exact CN2|].
        change (?i :: c2 ++ rs) with ([i] ++ c2 ++ rs). apply lok_plain_l; [|reflexivity].
        apply lok_plain; [exact LK2|]. rewrite ERS. reflexivity. }
    eexists _, _, _. split; [exact E3'|].
    intros HP HL v Hv m Hm Hh. rewrite E3 in HP |- *. cbn [emit peak] in HP.
    assert (BOT : 0 <= lpv - bot /\ bot <= P). { unfold pk, bot in *. destruct (reuse G); lia. }
    assert (BOTL : lvar_sz G + 8 <= bot). { unfold bot. destruct (reuse G); lia. }
    destruct (H v Hv) as [va [vb [PA [PB [HE HQ]]]]].
    destruct (S1 ltac:(lia) HL va PA m Hm Hh) as [j1 [m1 [R1 [K1 [-> Q1]]]]].
    pose proof (keep_good _ _ _ _ _ _ _ E1 ltac:(lia) HL Hm K1) as G1.
    assert (EA : forall q, good q -> ea sym (BReg (lptr G)) (- bot) q = lpv - bot).
    { intros q [A _]. unfold ea. rewrite A by auto. fold lpv. apply Z.mod_small. lia. }
    set (m2 := setm m1 (storen (nbytes sz_) (lpv - bot) (getr sz_ src m1) (mm m1))).
    assert (X1 : exec1 sym (Mov None (R sz_ src) (M (BReg (lptr G)) (- bot))) m1 = Some m2).
    { unfold m2. rewrite <- (EA m1) by auto. destruct Bs as [-> | ->]; reflexivity. }
    assert (NBY : Z.of_nat (nbytes sz_) <= 8) by (destruct Bs as [-> | ->]; cbn; lia).
    assert (G2 : good m2).
    { destruct G1 as [A B]. split; [exact A|]. intros a Ha. cbn [m2 setm mm]. rewrite storen_other by lia. auto. }
    assert (H2 : HB m2) by (apply (HE m1); [exact G1|exact G2|exact Q1|intros; reflexivity]).
    destruct (S2 ltac:(lia) ltac:(cbn [push peak]; lia) vb PB m2 G2 H2) as [j3 [m3 [R3 [K3 [-> Q3]]]]].
    pose proof (keep_good _ _ _ _ _ _ _ E2 ltac:(lia) ltac:(cbn [push peak]; lia) G2 K3) as G3.
    assert (LD : loadn (nbytes sz_) (lpv - bot) (mm m3) = getr sz_ src m1).
    { rewrite (loadn_ext _ _ _ (mm m2)).
      - cbn [m2 setm mm]. rewrite loadn_storen, <- nbits_nbytes. unfold getr. apply mod_mod_n. pose proof (nbits_pos sz_). lia.
      - intros a Ha. apply (kp_m _ _ _ _ _ _ K3). unfold zhi, zlo. cbn [push peak].
        unfold bot in *. destruct (reuse G); lia. }
    set (m4 := putr sz_ dest (getr sz_ src m1) m3).
    assert (X4 : exec1 sym (Mov None (M (BReg (lptr G)) (- bot)) (R sz_ dest)) m3 = Some m4).
    { unfold m4. rewrite <- LD, <- (EA m3) by auto. destruct Bs as [-> | ->]; reflexivity. }
    destruct (HQ m1 m3 m4 Q1 Q3 G1 G3) as [m5 [R5 [P5 Q5]]].
    { intros ->. destruct MD as [[_ ->]|[X _]]; [reflexivity|discriminate X]. }
    { intros ->. destruct MD as [[X _]|[_ ->]]; [discriminate X|left; reflexivity]. }
    { unfold m4, getr at 1. destruct Bs as [-> | ->]; cbn [putr setr rg]; 
      destruct MD as [[_ ->]|[_ ->]]; cbn [reg_eqb]; rewrite mod_mod_n by (cbn; lia);
      apply Z.mod_small; apply getr_range. }
    { intros q NQ. unfold m4. apply putr_other. exact NQ. }
    { unfold m4. apply putr_mm. }
    exists None, m5. split; [|split; [|split; [reflexivity|exact Q5]]].
    { rewrite run_app, R1, run_app. cbn [app]. rewrite ERS. cbn [run]. rewrite X1, run_app, R3.
      cbn [run]. rewrite X4. exact R5. }
    destruct P5 as [P5 P5m]. constructor.
    + intros q Cq. pose proof (callee_not _ Cq).
      assert (q <> dest). { destruct MD as [[_ ->]|[_ ->]]; destruct Cq as [-> | [-> | ->]]; discriminate. }
      rewrite P5 by tauto. unfold m4. rewrite putr_other by auto.
      rewrite (kp_c _ _ _ _ _ _ K3) by auto. cbn [m2 setm rg]. apply (kp_c _ _ _ _ _ _ K1). exact Cq.
    + intros i Hi. lia.
    + intros a Ha. rewrite P5m. unfold m4. rewrite putr_mm.
      unfold zhi, zlo in Ha. cbn [emit peak] in Ha.
      rewrite (kp_m _ _ _ _ _ _ K3).
      * cbn [m2 setm mm]. rewrite storen_other.
        -- apply (kp_m _ _ _ _ _ _ K1). unfold zhi, zlo, bot, pk in *. destruct (reuse G); lia.
        -- unfold bot, pk in *. destruct (reuse G); lia.
      * unfold zhi, zlo. cbn [push peak]. unfold bot, pk in *. destruct (reuse G); lia.
  - (* kept in a register *)
    unfold GP_SLOTS in LG.
    cbn [bind s_kind s_loc s_gp out slots peak cnt] in PO. rewrite bump_gp in PO. unfold insrtln, emit in PO.
    cbn [out slots peak cnt] in PO. rewrite O2, upd_mid in PO.
    set (pr := tmpreg g2) in *.
    assert (exists rs, rs = (if must then [Mov None (R sz_ pr) (R sz_ dest)] else []) /\
       r = (if must then dest else pr) /\
       st3 = mkgst (out st1 ++ Mov None (R sz_ src) (R sz_ pr) :: c2 ++ rs)
              (bumpm (g2 + 1) s2 (slots st1)) (peak st2) (cnt st2)) as [rs [ERS [ER E3]]].
    { destruct must; injection PO as <- <-; eexists; (split; [reflexivity|]); (split; [reflexivity|]).
      - rewrite <- app_assoc. reflexivity.
      - rewrite app_nil_r. reflexivity. }
    assert (E3' : ext st (emit tail st3) (c1 ++ (Mov None (R sz_ src) (R sz_ pr) :: c2 ++ rs) ++ tail)
               (Nat.max g1 (g2 + 1)) (Nat.max s1 s2)).
    { rewrite E3. constructor; cbn [emit out slots cnt peak]; try lia.
      - rewrite (ex_out _ _ _ _ _ E1), <- !app_assoc. reflexivity.
      - rewrite (ex_sl _ _ _ _ _ E1), bumpm_bumpm. reflexivity.
      - intros RU. pose proof (ex_st _ _ _ _ _ E1 RU). pose proof (ex_st _ _ _ _ _ E2 RU). lia.
      - rewrite app_assoc. apply lok_plain; auto.
        eapply lok_app; [exact CN1| |apply (ex_lok _ _ _ _ _ E1)|]; [exact CN2|].
        change (?i :: c2 ++ rs) with ([i] ++ c2 ++ rs). apply lok_plain_l; [|reflexivity].
        apply lok_plain; [exact LK2|]. rewrite ERS. destruct must; reflexivity. }
    eexists _, _, _. split; [exact E3'|].
    intros HP HL v Hv m Hm Hh. rewrite E3 in HP |- *. cbn [emit peak] in HP.
    destruct (H v Hv) as [va [vb [PA [PB [HE HQ]]]]].
    destruct (S1 ltac:(lia) HL va PA m Hm Hh) as [j1 [m1 [R1 [K1 [-> Q1]]]]].
    pose proof (keep_good _ _ _ _ _ _ _ E1 ltac:(lia) HL Hm K1) as G1.
    set (m2 := putr sz_ pr (getr sz_ src m1) m1).
    assert (X1 : exec1 sym (Mov None (R sz_ src) (R sz_ pr)) m1 = Some m2).
    { unfold m2. destruct Bs as [-> | ->]; reflexivity. }
    assert (G2 : good m2).
    { destruct G1 as [A B]. unfold m2. split; [|rewrite putr_mm; exact B]. intros q Cq.
      rewrite putr_other; [auto|]. intros ->. eapply tmp_not_callee; [exact Cq|reflexivity]. }
    assert (H2 : HB m2).
    { apply (HE m1); [exact G1|exact G2|exact Q1|]. intros q NQ. unfold m2. apply putr_other. apply NQ. }
    destruct (S2 ltac:(lia) ltac:(cbn [push peak]; lia) vb PB m2 G2 H2) as [j3 [m3 [R3 [K3 [-> Q3]]]]].
    pose proof (keep_good _ _ _ _ _ _ _ E2 ltac:(lia) ltac:(cbn [push peak]; lia) G2 K3) as G3.
    assert (PV : getr sz_ pr m3 = getr sz_ src m1).
    { unfold getr at 1. unfold pr. rewrite (kp_t _ _ _ _ _ _ K3) by lia. fold pr. unfold m2.
      destruct Bs as [-> | ->]; cbn [putr setr rg]; replace (reg_eqb pr pr) with true by (destruct pr; reflexivity);
      rewrite mod_mod_n by (cbn; lia); apply Z.mod_small; apply getr_range. }
    set (m4 := if must then putr sz_ dest (getr sz_ pr m3) m3 else m3).
    assert (X4 : run sym rs None m3 = Some (None, m4)).
    { rewrite ERS. unfold m4. destruct must; [|reflexivity]. destruct Bs as [-> | ->]; reflexivity. }
    destruct (HQ m1 m3 m4 Q1 Q3 G1 G3) as [m5 [R5 [P5 Q5]]].
    { intros ->. destruct MD as [[_ ->]|[X _]]; [exact ER|discriminate X]. }
    { intros ->. rewrite ER. apply tmpreg_istmp. }
    { unfold m4. rewrite ER. destruct must; [|exact PV].
      rewrite PV. unfold getr at 1. destruct Bs as [-> | ->]; cbn [putr setr rg]; 
      destruct MD as [[_ ->]|[X _]]; try discriminate X; cbn [reg_eqb]; rewrite mod_mod_n by (cbn; lia);
      apply Z.mod_small; apply getr_range. }
    { intros q NQ. unfold m4. rewrite ER in NQ. destruct must; [apply putr_other; exact NQ|reflexivity]. }
    { unfold m4. destruct must; [apply putr_mm|reflexivity]. }
    exists None, m5. split; [|split; [|split; [reflexivity|exact Q5]]].
    { rewrite run_app, R1, run_app. cbn [app run]. rewrite X1, run_app, R3, X4. exact R5. }
    assert (M4 : forall q, q <> r -> rg m4 q = rg m3 q).
    { intros q NQ. unfold m4. rewrite ER in NQ. destruct must; [apply putr_other; exact NQ|reflexivity]. }
    assert (M4m : mm m4 = mm m3) by (unfold m4; destruct must; [apply putr_mm|reflexivity]).
    assert (RC : forall q, callee q -> q <> r).
    { intros q Cq. rewrite ER. destruct MD as [[-> ->]|[-> _]].
      - destruct Cq as [-> | [-> | ->]]; discriminate.
      - intros ->. eapply tmp_not_callee; [exact Cq|reflexivity]. }
    destruct P5 as [P5 P5m]. constructor.
    + intros q Cq. pose proof (callee_not _ Cq). specialize (RC q Cq).
      rewrite P5, M4 by tauto. rewrite (kp_c _ _ _ _ _ _ K3) by auto. unfold m2. rewrite putr_other.
      * apply (kp_c _ _ _ _ _ _ K1). exact Cq.
      * intros ->. eapply tmp_not_callee; [exact Cq|reflexivity].
    + intros i Hi. assert (NE : tmpreg i <> pr). { intros X. apply tmpreg_inj in X; lia. }
      assert (NR : tmpreg i <> r).
      { rewrite ER. destruct must; [|exact NE]. destruct MD as [[_ ->]|[X _]]; [apply tmp_not_scratch|discriminate X]. }
      pose proof (tmp_not_scratch i). rewrite P5, M4 by tauto. rewrite (kp_t _ _ _ _ _ _ K3) by lia.
      unfold m2. rewrite putr_other by exact NE. apply (kp_t _ _ _ _ _ _ K1). lia.
    + intros a Ha. rewrite P5m, M4m. unfold zhi, zlo in Ha. cbn [emit peak] in Ha.
      rewrite (kp_m _ _ _ _ _ _ K3).
      * unfold m2. rewrite putr_mm. apply (kp_m _ _ _ _ _ _ K1). unfold zhi, zlo in *. destruct (reuse G); lia.
      * unfold zhi, zlo. cbn [push peak]. destruct (reuse G); lia.
Qed.

Lemma spec_push_pop st st1 st2 st3 preA QA preB QB r64 dest must r tail (pre : Z -> Prop) (Q : Z -> mach -> Prop) :
  spec st st1 preA (fun v => plainq (QA v)) -> spec (push st1) st2 preB (fun v => plainq (QB v)) ->
  pop_gp G r64 dest must st2 = Ok (r, st3) -> labels tail = [] ->
  (must = true /\ dest = AX) \/ (must = false /\ dest = DI) ->
  (forall v, pre v -> exists va vb, preA va /\ preB vb /\
     forall m1 m3 m4, QA va m1 -> QB vb m3 -> (must = true -> r = AX) -> (must = false -> istmp r) ->
       getr (gsize r64) r m4 = getr (gsize r64) AX m1 ->
       (forall q, q <> r -> rg m4 q = rg m3 q) -> mm m4 = mm m3 ->
       exists m', run sym tail None m4 = Some (None, m') /\ presr r m4 m' /\ Q v m') ->
  spec st (emit tail st3) pre (fun v => plainq (Q v)).
Proof using G sym bs P mem0 FR.
  rewrite !spec_h. intros A B C D E H. eapply hspec_push_pop; [exact A|exact B|exact C|exact D|exact E|].
  intros v Hv. destruct (H v Hv) as [va [vb [PA [PB HQ]]]]. exists va, vb. split; [exact PA|]. split; [exact PB|].
  split; [auto|]. intros m1 m3 m4 Q1 Q3 _ _. apply HQ; auto.
Qed.

End Inv.
