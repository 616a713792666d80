From Coq Require Import ZArith List Bool Lia.
From Verif Require Import Base IntSpec IntModel X86 CgModel AtomSpec AtomModel.
Import ListNotations.
Local Open Scope Z_scope.

Lemma asz8 : forall t ro code, atomic_op t ro = Ok code -> (8 <? asz t) = false.
Proof. intros [i| | | | |n] ro code H; try discriminate H; try reflexivity. destruct i; reflexivity. Qed.
Lemma code_is0 : forall t ro code, atomic_op t ro = Ok code -> code = [LoadObj; StoreOld; LBegin; Compute; LoadNew; MovDx; MovOldAx; Cmpxchg; SeteCl; JeSkip; StoreOldAx; LSkip; MovzCl; JzBegin; LoadRes ro].
Proof. intros t ro code HC. destruct t; try discriminate HC; injection HC as <-; reflexivity. Qed.
Lemma w_pos0 : forall t ro code, atomic_op t ro = Ok code -> 0 < 2 ^ (8 * asz t).
Proof. intros t ro code HC. destruct t as [i| | | | |n]; try discriminate HC; try destruct i; reflexivity. Qed.
Lemma ext_mod0 : forall t v, 0 <= v < 2 ^ (8 * asz t) -> 0 < 2 ^ (8 * asz t) -> ext t v mod 2 ^ (8 * asz t) = v.
Proof.
  intros t v H P0. unfold ext. destruct t as [i| | | | |n]; try (apply Z.mod_small; exact H).
  destruct (isigned i) eqn:S; [|apply Z.mod_small; exact H]. unfold sgn in *. cbn [asz] in *.
  assert (C : forall n, (0 < n <= 32) -> v < 2 ^ n -> ((if v <? 2 ^ (n - 1) then v else v - 2 ^ n) mod 2 ^ 32) mod 2 ^ n = v).
  { intros n N V. assert (D : (2 ^ n | 2 ^ 32)). { exists (2 ^ (32 - n)). rewrite <- Z.pow_add_r by lia. f_equal. lia. }
    assert (P : 0 < 2 ^ n) by (apply Z.pow_pos_nonneg; lia).
    rewrite <- Znumtheory.Zmod_div_mod; [|exact P|lia|exact D]. destruct (v <? 2 ^ (n - 1)).
    - apply Z.mod_small. lia.
    - replace (v - 2 ^ n) with (v + (-1) * 2 ^ n) by ring. rewrite Z.mod_add by lia. apply Z.mod_small. lia. }
  destruct i; try discriminate S; cbn [mty sz ty_pchar ty_char ty_short ty_int ty_long ty_llong] in *; cbn [Z.eqb Pos.eqb]; rewrite ?Z.add_0_r.
  - apply (C 8); lia.
  - apply (C 8); lia.
  - apply (C 16); lia.
  - apply (C 32); lia.
  - rewrite (Z.mod_small _ (2 ^ (8 * 8))); change (8 * 8) with 64 in *.
    + assert (E : (if v <? 2 ^ (64 - 1) then v else v - 2 ^ 64) mod 2 ^ 32 = v mod 2 ^ 32).
      { destruct (v <? 2 ^ (64 - 1)); [reflexivity|]. replace (v - 2 ^ 64) with (v + (- 2 ^ 32) * 2 ^ 32) by ring. apply Z.mod_add. lia. }
      rewrite E. pose proof (Z.div_mod v (2 ^ 32)). lia.
    + pose proof (Z.div_mod v (2 ^ 32)). pose proof (Z.mod_pos_bound v (2 ^ 32)).
      assert (E : (if v <? 2 ^ (64 - 1) then v else v - 2 ^ 64) mod 2 ^ 32 = v mod 2 ^ 32).
      { destruct (v <? 2 ^ (64 - 1)); [reflexivity|]. replace (v - 2 ^ 64) with (v + (- 2 ^ 32) * 2 ^ 32) by ring. apply Z.mod_add. lia. }
      rewrite E. lia.
  - rewrite (Z.mod_small _ (2 ^ (8 * 8))); change (8 * 8) with 64 in *.
    + assert (E : (if v <? 2 ^ (64 - 1) then v else v - 2 ^ 64) mod 2 ^ 32 = v mod 2 ^ 32).
      { destruct (v <? 2 ^ (64 - 1)); [reflexivity|]. replace (v - 2 ^ 64) with (v + (- 2 ^ 32) * 2 ^ 32) by ring. apply Z.mod_add. lia. }
      rewrite E. pose proof (Z.div_mod v (2 ^ 32)). lia.
    + pose proof (Z.div_mod v (2 ^ 32)). pose proof (Z.mod_pos_bound v (2 ^ 32)).
      assert (E : (if v <? 2 ^ (64 - 1) then v else v - 2 ^ 64) mod 2 ^ 32 = v mod 2 ^ 32).
      { destruct (v <? 2 ^ (64 - 1)); [reflexivity|]. replace (v - 2 ^ 64) with (v + (- 2 ^ 32) * 2 ^ 32) by ring. apply Z.mod_add. lia. }
      rewrite E. lia.
Qed.


Section P.
Variables (t : aty) (ro : bool) (code : list ai) (f : nat -> Z -> Z).
Hypothesis HC : atomic_op t ro = Ok code.
Let w := 2 ^ (8 * asz t).
Definition inr (v : Z) : Prop := 0 <= v < w.
Hypothesis HF : forall i v, inr v -> inr (f i v).

Lemma code_is : code = [LoadObj; StoreOld; LBegin; Compute; LoadNew; MovDx; MovOldAx; Cmpxchg; SeteCl; JeSkip; StoreOldAx; LSkip; MovzCl; JzBegin; LoadRes ro].
Proof. exact (code_is0 _ _ _ HC). Qed.
Lemma w_pos : 0 < w.
Proof. exact (w_pos0 _ _ _ HC). Qed.
Lemma part_mod : forall r v, part t r v mod w = v mod w.
Proof.
  intros r v. unfold part. fold w. pose proof w_pos. destruct (asz t <? 4).
  - rewrite Z.add_comm, Z.mod_add by lia. apply Z.mod_mod. lia.
  - apply Z.mod_mod. lia.
Qed.
Lemma ext_mod : forall v, inr v -> ext t v mod w = v.
Proof. intros v H. apply ext_mod0; [exact H|apply w_pos]. Qed.
Lemma mod_in : forall v, inr (v mod w).
Proof. intros v. apply Z.mod_pos_bound, w_pos. Qed.

(** What holds of a thread before each instruction; [L] are its changes so far. *)
Definition won (i : nat) (s : thr) (L : list change) : Prop := L = [(Some i, v_old s, v_new s)].
Definition tinv (i : nat) (k : nat) (s : thr) (L : list change) : Prop :=
  rest s = skipn k code /\
  match k with
  | 0 | 1 => L = []
  | 2 | 3 => L = [] /\ inr (v_old s)
  | 4 => L = [] /\ inr (v_old s) /\ v_new s = f i (v_old s)
  | 5 => L = [] /\ inr (v_old s) /\ v_new s = f i (v_old s) /\ (acc t s mod w = v_new s)%Z
  | 6 => L = [] /\ inr (v_old s) /\ v_new s = f i (v_old s) /\ (dx s mod w = v_new s)%Z
  | 7 => L = [] /\ inr (v_old s) /\ v_new s = f i (v_old s) /\ (dx s mod w = v_new s)%Z /\ (ax s mod w = v_old s)%Z
  | 8 => zf s = true /\ won i s L \/ zf s = false /\ L = []
  | 9 => (zf s = true /\ won i s L \/ zf s = false /\ L = []) /\ (cx s mod 256 = (if zf s then 1 else 0))%Z
  | 10 => L = [] /\ zf s = false /\ (cx s mod 256 = 0)%Z
  | 11 | 12 => won i s L /\ (cx s mod 256 = 1)%Z \/ L = [] /\ (cx s mod 256 = 0)%Z /\ inr (v_old s)
  | 13 => won i s L /\ (ax s mod 256 = 1)%Z \/ L = [] /\ (ax s mod 256 = 0)%Z /\ inr (v_old s)
  | 14 => won i s L
  | 15 => won i s L /\ acc t s = ext t (if ro then v_old s else v_new s)
  | _ => False
  end%nat.
Definition tok (i : nat) (s : thr) (L : list change) : Prop := exists k, tinv i k s L.

Lemma acc_with : forall s v, acc t (with_acc t s v) = v.
Proof. intros s v. unfold acc, with_acc. destruct (is_flt t); reflexivity. Qed.
Lemma with_rest : forall s v, rest (with_acc t s v) = rest s /\ v_old (with_acc t s v) = v_old s /\ v_new (with_acc t s v) = v_new s.
Proof. intros s v. unfold with_acc. destruct (is_flt t); repeat split. Qed.
(** Steps a thread on its own still needs. *)
Definition pot (k : nat) (s : thr) (o : Z) : nat :=
  match k with
  | 0 | 1 => 60 - k
  | 2 | 3 | 4 | 5 | 6 | 7 => if (v_old s =? o)%Z then 30 - k else 60 - k
  | 8 | 9 | 10 => if zf s then 15 - k else if (ax s mod w =? o)%Z then 46 - k else 100 - k
  | 11 | 12 => if (cx s mod 256 =? 1)%Z then 15 - k else if (v_old s =? o)%Z then 46 - k else 100 - k
  | 13 => if (ax s mod 256 =? 1)%Z then 15 - k else if (v_old s =? o)%Z then 46 - k else 100 - k
  | _ => 15 - k
  end%nat.
Ltac spl n k := match n with O => idtac | S ?m => destruct k as [|k]; [|spl m k] end.
Ltac pots := cbv beta iota delta [pot next v_old v_new zf ax cx dx]; rewrite ?Z.eqb_refl; repeat match goal with |- context [if ?b then _ else _] => destruct b eqn:? end; try lia.
Lemma tstep_pot : forall i k s L o s' o' c, tinv i k s L -> inr o -> tstep t code (f i) s o = Some (s', o', c) ->
  inr o' /\ match c with Some (a, b) => a = o /\ o' = b /\ b = f i a /\ L = [] | None => o' = o end /\
  exists k', tinv i k' s' (match c with Some (a, b) => [(Some i, a, b)] | None => L end) /\ (pot k' s' o' < pot k s o)%nat.
Proof.
  intros i k s L o s' o' c (R & H) Ho E. unfold tstep in E. rewrite R in E.
  pose proof code_is as CI. pose proof (asz8 t ro code HC) as A8.
  assert (AB : after LBegin code = skipn 3 code) by (rewrite CI; reflexivity).
  assert (AS : after LSkip code = skipn 12 code) by (rewrite CI; reflexivity).
  rewrite AB, AS in E. fold w in E. pose proof ext_mod as XM. clear AB AS.
  spl 15%nat k; [..|destruct k; [rewrite CI in E; discriminate E|destruct H]].
  all: rewrite CI in E; cbn [skipn] in E; rewrite <- ?CI in E; cbv beta iota zeta in E.
  - injection E as <- <- <-. split; [exact Ho|]. split; [reflexivity|]. exists 1%nat. split; [|pots]. split; [rewrite (proj1 (with_rest _ _)), CI; reflexivity|exact H].
  - injection E as <- <- <-. split; [exact Ho|]. split; [reflexivity|]. exists 2%nat. split; [|pots]. split; [rewrite CI; reflexivity|split; [exact H|apply mod_in]].
  - injection E as <- <- <-. split; [exact Ho|]. split; [reflexivity|]. exists 3%nat. split; [|cbn [v_old next]; pots]. split; [rewrite CI; reflexivity|exact H].
  - injection E as <- <- <-. split; [exact Ho|]. split; [reflexivity|]. exists 4%nat. split; [|cbn [v_old next]; pots]. split; [rewrite CI; reflexivity|]. cbn [v_old v_new next]. destruct H as [H1 H2]. split; [exact H1|]. split; [exact H2|reflexivity].
  - injection E as <- <- <-. split; [exact Ho|]. split; [reflexivity|]. exists 5%nat. destruct H as (H1 & H2 & H3).
    set (s1 := next s _). destruct (with_rest s1 (ext t (v_new s))) as (W1 & W2 & W3).
    split; [|cbv beta iota delta [pot]; rewrite W2; cbn [s1 v_old next]; pots].
    split; [rewrite W1, CI; reflexivity|]. rewrite W2, W3. cbn [s1 next v_old v_new]. split; [exact H1|]. split; [exact H2|]. split; [exact H3|].
    rewrite acc_with. apply XM. rewrite H3. apply HF. exact H2.
  - injection E as <- <- <-. split; [exact Ho|]. split; [reflexivity|]. exists 6%nat. destruct H as (H1 & H2 & H3 & H4). split; [|cbn [v_old next]; pots].
    split; [rewrite CI; reflexivity|]. cbn [v_old v_new next dx]. split; [exact H1|]. split; [exact H2|]. split; [exact H3|]. rewrite part_mod. exact H4.
  - injection E as <- <- <-. split; [exact Ho|]. split; [reflexivity|]. exists 7%nat. destruct H as (H1 & H2 & H3 & H4). split; [|cbn [v_old next]; pots].
    split; [rewrite CI; reflexivity|]. cbn [v_old v_new next dx ax]. split; [exact H1|]. split; [exact H2|]. split; [exact H3|]. split; [exact H4|]. rewrite part_mod. apply Z.mod_small. exact H2.
  - destruct H as (H1 & H2 & H3 & H4 & H5). cbn [ax next dx] in E. rewrite A8, H4, H5 in E. destruct (v_old s =? o) eqn:EQ.
    + apply Z.eqb_eq in EQ. subst o. injection E as <- <- <-. split; [rewrite H3; apply HF; exact H2|]. split; [split; [reflexivity|]; split; [reflexivity|]; split; [exact H3|exact H1]|].
      exists 8%nat. split; [|cbv beta iota delta [pot]; cbn [zf]; pots]. split; [rewrite CI; reflexivity|]. left. split; reflexivity.
    + injection E as <- <- <-. split; [exact Ho|]. split; [reflexivity|]. exists 8%nat. split; [|cbv beta iota delta [pot]; cbn [zf ax]; rewrite part_mod, (Z.mod_small o w Ho), EQ, Z.eqb_refl; lia].
      split; [rewrite CI; reflexivity|]. right. split; [reflexivity|exact H1].
  - injection E as <- <- <-. split; [exact Ho|]. split; [reflexivity|]. exists 9%nat. split; [|cbn [zf ax next]; pots]. split; [rewrite CI; reflexivity|]. split; [exact H|]. cbn [cx zf next].
    rewrite Z.add_comm, Z.mod_add by lia. destruct (zf s); reflexivity.
  - destruct H as ([(Z1 & Z2)|(Z1 & Z2)] & HX); cbn [zf next] in E; rewrite Z1 in E, HX; injection E as <- <- <-; (split; [exact Ho|]); (split; [reflexivity|]).
    + exists 12%nat. split; [|cbv beta iota delta [pot]; cbn [cx next]; rewrite HX, Z1; cbn [Z.eqb Pos.eqb]; lia]. split; [rewrite CI; reflexivity|]. left. split; [exact Z2|exact HX].
    + exists 10%nat. split; [|cbv beta iota delta [pot]; cbn [zf ax next]; rewrite Z1; pots]. split; [rewrite CI; reflexivity|]. split; [exact Z2|]. split; [exact Z1|exact HX].
  - destruct H as (H1 & HZ & H2). injection E as <- <- <-. split; [exact Ho|]. split; [reflexivity|]. exists 11%nat. split.
    + split; [rewrite CI; reflexivity|]. right. split; [exact H1|]. split; [exact H2|apply mod_in].
    + cbv beta iota delta [pot]. cbn [cx v_old next ax]. rewrite H2, HZ. cbn [Z.eqb]. pots.
  - injection E as <- <- <-. split; [exact Ho|]. split; [reflexivity|]. exists 12%nat. split; [|cbn [cx v_old next]; pots]. split; [rewrite CI; reflexivity|exact H].
  - injection E as <- <- <-. split; [exact Ho|]. split; [reflexivity|]. exists 13%nat. split; [|cbn [cx v_old next ax]; cbv beta iota delta [pot]; cbn [ax v_old]; rewrite Z.mod_mod by lia; pots]. split; [rewrite CI; reflexivity|]. cbn [ax next cx].
    rewrite Z.mod_mod by lia. exact H.
  - cbn [ax next] in E. destruct H as [(H1 & H2)|(H1 & H2 & H3)]; rewrite H2 in E; injection E as <- <- <-; (split; [exact Ho|]); (split; [reflexivity|]).
    + exists 14%nat. split; [|cbv beta iota delta [pot]; rewrite H2; cbn [Z.eqb Pos.eqb]; lia]. split; [rewrite CI; reflexivity|]. exact H1.
    + exists 3%nat. split; [|cbv beta iota delta [pot]; cbn [v_old next]; rewrite H2; cbn [Z.eqb]; pots]. split; [rewrite CI; reflexivity|]. split; assumption.
  - injection E as <- <- <-. split; [exact Ho|]. split; [reflexivity|]. exists 15%nat. split; [|cbv beta iota delta [pot]; lia].
    set (s1 := next s _). destruct (with_rest s1 (ext t (if ro then v_old s else v_new s))) as (W1 & W2 & W3).
    split; [rewrite W1, CI; reflexivity|]. unfold won in *. rewrite W2, W3, acc_with. split; [exact H|reflexivity].
Qed.
Lemma tstep_some : forall g s o, rest s <> [] -> exists x, tstep t code g s o = Some x.
Proof.
  intros g s o H. unfold tstep. destruct (rest s) as [|i r]; [contradiction|]. destruct i; try (eexists; reflexivity). rewrite (asz8 t ro code HC). destruct (_ =? _); eexists; reflexivity.
Qed.
Lemma tstep_ok : forall i s L o s' o' c, tok i s L -> inr o -> tstep t code (f i) s o = Some (s', o', c) ->
  inr o' /\ match c with
            | Some (a, b) => a = o /\ o' = b /\ b = f i a /\ L = [] /\ tok i s' [(Some i, a, b)]
            | None => o' = o /\ tok i s' L
            end.
Proof.
  intros i s L o s' o' c (k & K) Ho E. destruct (tstep_pot i k _ _ _ _ _ _ K Ho E) as (A & B & k' & C & _). split; [exact A|].
  destruct c as [[a b]|].
  - destruct B as (B1 & B2 & B3 & B4). repeat (split; [assumption|]). exists k'. exact C.
  - split; [exact B|]. exists k'. exact C.
Qed.

Definition ginv (v0 : Z) (g : gst) : Prop :=
  inr (obj g) /\ leads v0 (log g) (obj g) /\ lawful f (log g) /\ forall i, tok i (thrs g i) (own i (log g)).
Lemma own_other : forall i j a b l, j <> i -> own j ((Some i, a, b) :: l) = own j l.
Proof. intros i j a b l N. unfold own. cbn [filter fst]. apply Nat.eqb_neq in N. rewrite N. reflexivity. Qed.
Lemma own_self : forall i a b l, own i ((Some i, a, b) :: l) = (Some i, a, b) :: own i l.
Proof. intros i a b l. unfold own. cbn [filter fst]. rewrite Nat.eqb_refl. reflexivity. Qed.
Lemma gstep_ok : forall v0 who g g', ginv v0 g -> gstep t code f who g g' -> ginv v0 g'.
Proof.
  intros v0 who g g' (I1 & I2 & I3 & I4) H. destruct H as [i g s' v' c E|g v' Hv].
  - destruct (tstep_ok i _ _ _ _ _ _ (I4 i) I1 E) as (O1 & O2). destruct c as [[a b]|].
    + destruct O2 as (-> & -> & EB & EL & TK). split; [exact O1|]. cbn [obj log thrs]. split; [split; [reflexivity|exact I2]|]. split.
      * intros j a b0 [Hj|Hj]; [injection Hj as <- <- <-; exact EB|eapply I3; exact Hj].
      * intros j. destruct (Nat.eqb j i) eqn:EJ.
        -- apply Nat.eqb_eq in EJ. subst j. rewrite own_self, EL. exact TK.
        -- apply Nat.eqb_neq in EJ. rewrite own_other by exact EJ. apply I4.
    + destruct O2 as (-> & TK). split; [exact O1|]. cbn [obj log thrs]. split; [exact I2|]. split; [exact I3|].
      intros j. destruct (Nat.eqb j i) eqn:EJ; [apply Nat.eqb_eq in EJ; subst j; exact TK|apply I4].
  - split; [exact Hv|]. cbn [obj log thrs]. split; [split; [reflexivity|exact I2]|]. split.
    + intros j a b [Hj|Hj]; [discriminate|eapply I3; exact Hj].
    + intros j. exact (I4 j).
Qed.
Definition started (g : gst) : Prop := inr (obj g) /\ log g = [] /\ forall i, rest (thrs g i) = code.
Lemma reach_inv : forall g0 who g, started g0 -> gsteps t code f who g0 g -> ginv (obj g0) g.
Proof.
  intros g0 who g (S1 & S2 & S3) H.
  assert (I0 : ginv (obj g0) g0).
  { split; [exact S1|]. rewrite S2. split; [reflexivity|]. split; [intros i a b []|]. intros i. exists 0%nat. split; [rewrite S3; reflexivity|reflexivity]. }
  revert I0. generalize (obj g0) at 1 2 as v0. intros v0. clear S1 S2 S3. induction H; intros I0; [exact I0|]. apply IHgsteps. eapply gstep_ok; eassumption.
Qed.
Lemma atomic_ok : forall g0 who g, started g0 -> gsteps t code f who g0 g ->
  leads (obj g0) (log g) (obj g) /\ lawful f (log g) /\
  forall i, (length (own i (log g)) <= 1)%nat /\
    (rest (thrs g i) = [] -> exists a b, own i (log g) = [(Some i, a, b)] /\ acc t (thrs g i) = ext t (if ro then a else b)).
Proof.
  intros g0 who g S H. destruct (reach_inv _ _ _ S H) as (_ & L & F & TK). split; [exact L|]. split; [exact F|]. intros i. destruct (TK i) as (k & R & K).
  pose proof code_is as CI.
  spl 16%nat k; [..|destruct K].
  all: rewrite CI in R; cbn [skipn] in R; split; [|rewrite R; try discriminate].
  all: unfold won in K.
  all: try (rewrite K; cbn [length]; lia).
  all: try (rewrite (proj1 K); cbn [length]; lia).
  all: try (destruct K as [[K1 K2]|K]; [rewrite ?K1, ?K2|rewrite ?(proj1 K), ?(proj2 K)]; cbn [length]; lia).
  - destruct K as [[[_ ->]|[_ ->]] _]; cbn [length]; lia.
  - intros _. exists (v_old (thrs g i)), (v_new (thrs g i)). exact K.
Qed.


Lemma alone0 : forall n i v0 g k, ginv v0 g -> tinv i k (thrs g i) (own i (log g)) -> (pot k (thrs g i) (obj g) <= n)%nat ->
  exists m g', (m <= n)%nat /\ gsteps t code f (repeat (Some i) m) g g' /\ rest (thrs g' i) = [].
Proof.
  induction n as [|n IH]; intros i v0 g k I K P; (destruct (rest (thrs g i)) as [|x r] eqn:ER; [exists 0%nat, g; split; [lia|]; split; [constructor|exact ER]|]).
  all: destruct (tstep_some (f i) (thrs g i) (obj g)) as ([[s' o'] c] & E); [rewrite ER; discriminate|].
  all: destruct (tstep_pot i k _ _ _ _ _ _ K (proj1 I) E) as (A & B & k' & K' & P').
  - lia.
  - pose proof (g_thr t code f i g s' o' c E) as G. pose proof (gstep_ok v0 _ _ _ I G) as I'.
    set (g1 := mkg _ _ _) in *.
    assert (T1 : thrs g1 i = s') by (cbn [g1 thrs]; rewrite Nat.eqb_refl; reflexivity).
    destruct (IH i v0 g1 k' I') as (m & g' & M1 & M2 & M3).
    + rewrite T1. cbn [g1 log]. destruct c as [[a b]|]; [rewrite own_self, (proj2 (proj2 (proj2 B)))|]; exact K'.
    + rewrite T1. cbn [g1 obj]. lia.
    + exists (S m), g'. split; [lia|]. split; [|exact M3]. cbn [repeat]. econstructor; [exact G|exact M2].
Qed.
Lemma alone : forall g0 who g i, started g0 -> gsteps t code f who g0 g ->
  exists m g', (m <= 100)%nat /\ gsteps t code f (repeat (Some i) m) g g' /\ rest (thrs g' i) = [].
Proof.
  intros g0 who g i HS H. pose proof (reach_inv _ _ _ HS H) as I. pose proof I as (_ & _ & _ & TK). destruct (TK i) as (k & K).
  destruct (alone0 (pot k (thrs g i) (obj g)) i _ g k I K (le_n _)) as (m & g' & M1 & M2 & M3). exists m, g'. split; [|split; assumption].
  enough (pot k (thrs g i) (obj g) <= 100)%nat by lia. cbv beta iota delta [pot].
  do 15 (destruct k as [|k]; [repeat match goal with |- context [if ?b then _ else _] => destruct b end; lia|]). lia.
Qed.
End P.

(** Running threads in a given order. *)
Fixpoint grun (t : aty) (code : list ai) (f : nat -> Z -> Z) (l : list nat) (g : gst) : option gst :=
  match l with
  | [] => Some g
  | i :: r =>
      match tstep t code (f i) (thrs g i) (obj g) with
      | Some (s', v', c) =>
          grun t code f r (mkg (fun j => if Nat.eqb j i then s' else thrs g j) v'
                               (match c with Some (a, b) => (Some i, a, b) :: log g | None => log g end))
      | None => None
      end
  end.
Lemma grun_ex : forall t code f (P : gst -> Prop) l g,
  match grun t code f l g with Some g' => P g' | None => False end -> exists g', gsteps t code f (map Some l) g g' /\ P g'.
Proof.
  intros t code f P l. induction l as [|i r IH]; intros g H.
  - exists g. split; [constructor|exact H].
  - cbn [grun] in H. destruct (tstep t code (f i) (thrs g i) (obj g)) as [[[s' v'] c]|] eqn:E; [|destruct H].
    destruct (IH _ H) as (g' & G & HP). exists g'. split; [|exact HP]. cbn [map]. econstructor; [apply g_thr; exact E|exact G].
Qed.
