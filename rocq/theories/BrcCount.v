(** Arrays of unknown bound. *)
From Coq Require Import String ZArith List Bool Lia PeanoNat.
From Verif Require Import Base BrcSpec BrcModel BrcTree BrcParse.
Import ListNotations.
Local Open Scope list_scope.

Section Count.
Variable E : Type.
Variable compat : E -> ity -> bool.
Variable str : E -> option (list Z).
Notation tok := (itok E).
Notation ini := (ini E).
Notation ev := (ev E).
Notation init := (init E).
Notation item := (list desig * init)%type.
Notation fl := (fill compat str false).
Notation rn := (run (fill compat str false)).
Notation init2 := (init2 compat str).
Notation braced := (braced compat str).
Notation desg := (desg compat str).
Notation count := (count compat str).
Notation unknown := (unknown compat str).
Implicit Types (l : list item) (T U W : ity) (p q : path) (D V : list ev).

Lemma reach_acc V k : fold_left (fun m e => match place e with [] => m | i :: _ => Nat.max m (S i) end) V k = Nat.max k (reach V).
Proof.
  unfold reach. revert k. induction V as [|v V IH]; intros k; cbn [fold_left]; [lia|].
  rewrite IH. rewrite (IH (match place v with [] => 0 | i :: _ => Nat.max 0 (S i) end)). destruct (place v); lia.
Qed.
Lemma reach_cons v V : reach (v :: V) = Nat.max (match place v with [] => 0 | i :: _ => S i end) (reach V).
Proof. unfold reach at 1. cbn [fold_left]. rewrite reach_acc. destruct (place v); lia. Qed.
Lemma reach_app V D : reach (V ++ D) = Nat.max (reach V) (reach D).
Proof. induction V as [|v V IH]; [reflexivity|]. cbn [app]. rewrite !reach_cons, IH. lia. Qed.
Lemma reach_pre k p V : V <> [] -> reach (map (pre (k :: p)) V) = S k.
Proof.
  induction V as [|v V IH]; intros H; [congruence|]. cbn [map]. rewrite reach_cons.
  assert (P : place (pre (k :: p) v) = k :: p ++ place v) by (destruct v; reflexivity). rewrite P.
  destruct V as [|w V]; [reflexivity|]. rewrite IH by discriminate. lia.
Qed.

Lemma dive_some tk e sl ld U : atom E str tk e sl ld -> forall v q, whole U -> dive compat false e sl ld U = Some (v, q) -> v <> [].
Proof.
  intros A. induction U as [U IH] using ity_kids_ind. intros v q Wh H. destruct q as [|q1 q].
  - apply (atom_fits E compat str tk e sl ld U [] v A H).
  - destruct (dive_first E compat e sl ld U v (q1 :: q) Wh H) as (W & v0 & q0 & K & Hd & -> & _); [discriminate|].
    pose proof (IH 0 W K v0 q0 (whole_kid U 0 W Wh K) Hd). destruct v0; [congruence|discriminate].
Qed.
Lemma fill_some : forall s i U v q, isz E i <= s -> whole U -> fl i U = Some (v, q) -> v <> [].
Proof.
  induction s as [|s IH]; intros i U v q L Wh H; [pose proof (isz_pos E i); lia|].
  destruct i as [e|e z|l tc].
  - apply (dive_some (TE e) e (str e) false U (atom_TE E str e) v q Wh H).
  - apply (dive_some (TX e z) e None true U (atom_TX E str e z) v q Wh H).
  - rewrite isz_IB in L. destruct (fill_IB E compat str _ _ _ _ _ H) as [(Sc & i & -> & -> & Hi)|[(C & e & z & -> & Se & -> & Hi)|(Ns & _ & -> & V & -> & R)]].
    + cbn [lsz] in L. apply (IH i U v q ltac:(lia) Wh Hi).
    + apply (dive_some (TE e) e (str e) false U (atom_TE E str e) v q Wh Hi).
    + discriminate.
Qed.

(** * Shorter arrays *)
Definition clip (k : nat) (c : option path) : option path :=
  match c with Some (i :: p) => if Nat.ltb i k then Some (i :: p) else None | _ => None end.
Lemma nxt_clip U a k i q : i < k -> k <= a -> nxt (IArr k U) (i :: q) = clip k (nxt (IArr a U) (i :: q)).
Proof.
  intros L La. cbn [nxt kid is_union]. assert (L1 : Nat.ltb i k = true) by (apply Nat.ltb_lt; lia). assert (L2 : Nat.ltb i a = true) by (apply Nat.ltb_lt; lia).
  rewrite L1, L2. destruct (nxt U q) as [q'|].
  - cbn [clip]. rewrite L1. reflexivity.
  - destruct (Nat.ltb (S i) a) eqn:L3.
    + cbn [clip]. destruct (Nat.ltb (S i) k); reflexivity.
    + assert (L4 : Nat.ltb (S i) k = false) by (apply Nat.ltb_ge in L3; apply Nat.ltb_ge; lia). rewrite L4. reflexivity.
Qed.
Lemma resolve_clip U a k ds i r : resolve (IArr a U) ds = Some (i :: r) -> i < k -> k <= a -> resolve (IArr k U) ds = Some (i :: r).
Proof.
  intros H L La. destruct ds as [|[z|x] ds]; [discriminate| |discriminate]. cbn [resolve] in *.
  destruct ((0 <=? z)%Z && (z <? Z.of_nat a)%Z) eqn:Z; [|discriminate]. apply andb_prop in Z. destruct Z as [Z1 Z2].
  cbn [sub kid] in *. destruct (Nat.ltb (Z.to_nat z) a); [|discriminate]. destruct (resolve U ds) as [q|] eqn:Rd; [|discriminate].
  injection H as Hi <-. apply Z.leb_le in Z1.
  assert (Z3 : (z <? Z.of_nat k)%Z = true) by (apply Z.ltb_lt; lia). assert (Z4 : (0 <=? z)%Z = true) by (apply Z.leb_le; lia). rewrite Z3, Z4. cbn [andb sub kid].
  assert (L1 : Nat.ltb (Z.to_nat z) k = true) by (apply Nat.ltb_lt; lia). rewrite L1, Hi, Rd. reflexivity.
Qed.
Lemma sub_clip U a k i r : i < k -> k <= a -> sub (IArr k U) (i :: r) = sub (IArr a U) (i :: r).
Proof.
  intros L La. cbn [sub kid]. assert (L1 : Nat.ltb i k = true) by (apply Nat.ltb_lt; lia). assert (L2 : Nat.ltb i a = true) by (apply Nat.ltb_lt; lia).
  rewrite L1, L2. reflexivity.
Qed.
Lemma resolve_arr U a d ds r : resolve (IArr a U) (d :: ds) = Some r -> exists z q, d = DIdx z /\ (0 <= z < Z.of_nat a)%Z /\ r = Z.to_nat z :: q /\ resolve U ds = Some q.
Proof.
  destruct d as [z|x]; [|discriminate]. cbn [resolve]. destruct ((0 <=? z)%Z && (z <? Z.of_nat a)%Z) eqn:Z; [|discriminate].
  apply andb_prop in Z. destruct Z as [Z1 Z2]. apply Z.leb_le in Z1. apply Z.ltb_lt in Z2. cbn [sub kid].
  destruct (Nat.ltb (Z.to_nat z) a); [|discriminate]. destruct (resolve U ds) as [q|]; [|discriminate]. intros H. injection H as <-. exists z, q. auto.
Qed.
Lemma nxt_some T p q : nxt T p = Some q -> q <> [].
Proof.
  destruct p as [|i p]; [discriminate|]. cbn [nxt]. destruct (kid T i) as [U|]; [|discriminate].
  destruct (nxt U p); [intros H; injection H as <-; discriminate|]. destruct (is_union T); [discriminate|]. destruct (kid T (S i)); [|discriminate].
  intros H; injection H as <-; discriminate.
Qed.
Lemma run_clip U a k : whole (IArr a U) -> k <= a -> forall l V (c : option path), (forall p, c = Some p -> p <> []) ->
  rn (IArr a U) c l = Some V -> reach V <= k -> rn (IArr k U) (clip k c) l = Some V.
Proof.
  intros Wh La l. induction l as [|[ds i] l IH]; intros V c Nc R Lr; [exact R|].
  cbn [run] in *.
  destruct (match ds with [] => c | _ => resolve (IArr a U) ds end) as [p|] eqn:Qp; [|discriminate].
  destruct (sub (IArr a U) p) as [W|] eqn:S; [|discriminate]. destruct (fl i W) as [[v q]|] eqn:Fi; [|discriminate].
  destruct (rn (IArr a U) (nxt (IArr a U) (p ++ q)) l) as [w|] eqn:R2; [|discriminate]. injection R as <-.
  rewrite reach_app in Lr. pose proof (fill_some (isz E i) i W v q (le_n _) (whole_sub _ _ _ Wh S) Fi) as Nv.
  assert (Hp : exists j p', p = j :: p').
  { destruct p as [|j p']; [exfalso|eauto]. destruct ds as [|d ds]; [apply (Nc []); [exact Qp|reflexivity]|].
    destruct (resolve_arr _ _ _ _ _ Qp) as (z & q' & _ & _ & Q & _). discriminate. }
  destruct Hp as (j & p' & ->). rewrite (reach_pre j p' v Nv) in Lr.
  assert (Qp' : match ds with [] => clip k c | _ => resolve (IArr k U) ds end = Some (j :: p')).
  { destruct ds as [|d ds].
    - subst c. cbn [clip]. assert (L1 : Nat.ltb j k = true) by (apply Nat.ltb_lt; lia). rewrite L1. reflexivity.
    - apply (resolve_clip U a k); [exact Qp|lia|exact La]. }
  rewrite Qp', (sub_clip U a k) by lia. rewrite S, Fi. cbn [app]. rewrite (nxt_clip U a k) by lia.
  rewrite (IH w); [reflexivity| |exact R2|lia]. intros r Hr. apply (nxt_some _ _ _ Hr).
Qed.
Lemma combine_seq (s : list Z) : forall b a, length s <= a -> combine (seq b a) s = combine (seq b (length s)) s.
Proof.
  induction s as [|z s IH]; intros b a L; [rewrite !combine_nil; reflexivity|]. destruct a as [|a]; cbn [length] in L; [lia|].
  cbn [seq length combine]. f_equal. apply IH. lia.
Qed.
Lemma reach_string (s : list Z) : forall b a, reach (map (fun '(k, z) => @Put E [k] (SC z)) (combine (seq b a) s)) = match Nat.min a (length s) with O => 0 | S m => b + S m end.
Proof.
  induction s as [|z s IH]; intros b a; [rewrite combine_nil, Nat.min_0_r; reflexivity|].
  destruct a as [|a]; [reflexivity|]. cbn [seq combine map length Nat.min]. rewrite reach_cons, IH. cbn [place].
  destruct (Nat.min a (length s)); lia.
Qed.
Lemma fill_clip i U a V : whole (IArr a U) -> fl i (IArr a U) = Some (V, []) -> reach V < a -> reach V <> 0 ->
  fl i (IArr (reach V) U) = Some (V, []).
Proof.
  intros Wh H Lt Nz.
  assert (Str : forall e s, chars (IArr a U) = true -> str e = Some s -> fl (IE e) (IArr a U) = Some (V, []) -> fl (IE e) (IArr (reach V) U) = Some (V, [])).
  { intros e s C Se Hi. cbn [fill dive] in *. change (chars (IArr (reach V) U)) with (chars (IArr a U)). rewrite C, Se in *. injection Hi as <-.
    f_equal. f_equal. f_equal. f_equal. rewrite reach_cons, reach_string in *. cbn [place Nat.max] in *.
    rewrite (combine_seq s 0 a); [f_equal; f_equal|]; destruct (Nat.min a (length s)) eqn:M; lia. }
  destruct i as [e|e z|l tc].
  - destruct (chars (IArr a U)) eqn:C.
    + destruct (str e) as [s|] eqn:Se.
      * apply (Str e s eq_refl Se H).
      * exfalso. cbn [fill] in H. rewrite Se in H. cbn [dive] in H. rewrite C in H. cbn [andb] in H. destruct (dive compat false e None false U) as [[v0 q0]|]; discriminate.
    + exfalso. cbn [fill dive] in H. rewrite C in H. destruct (dive compat false e (str e) false U) as [[v0 q0]|]; discriminate.
  - exfalso. cbn [fill dive] in H. destruct (chars (IArr a U)); [discriminate|]. destruct (dive compat false e None true U) as [[v0 q0]|]; discriminate.
  - destruct (fill_IB E compat str _ _ _ _ _ H) as [(Sc & _)|[(C & e & z & -> & Se & -> & Hi)|(Ns & Nst & _ & V' & -> & R)]]; [discriminate| |].
    + specialize (Str e z C Se Hi). cbn [fill is_scalar]. change (chars (IArr (reach V) U)) with (chars (IArr a U)). rewrite C, Se. cbn [fill] in Str. rewrite Se in Str. exact Str.
    + rewrite reach_cons in *. cbn [place Nat.max] in *.
      pose proof (run_clip U a (reach V') Wh ltac:(lia) l V' (Some [0]) ltac:(intros p Q; injection Q as <-; discriminate) R (le_n _)) as R'.
      assert (Cl : clip (reach V') (Some [0]) = Some [0]). { cbn [clip]. destruct (reach V'); [congruence|reflexivity]. }
      rewrite Cl in R'. cbn [fill is_scalar].
      assert (M : match l with [([], IE e)] => if chars (IArr (reach V') U) then str e else None | _ => None end = None).
      { change (chars (IArr (reach V') U)) with (chars (IArr a U)). destruct (chars (IArr a U)) eqn:C.
        - destruct l as [|[[|d ds] [e|e s|l0 tc0]] [|x l]]; try reflexivity. apply (Nst eq_refl e eq_refl).
        - destruct l as [|[[|d ds] [e|e s|l0 tc0]] [|x l]]; reflexivity. }
      rewrite M, R'. destruct l as [|[[|d ds] i] [|x l]]; reflexivity.
Qed.

(** * Counting *)
Definition cstep (f : nat) U (m : ini) (t : list tok) (i max : Z) : res Z :=
  bind (match t with
        | IDX i :: r | RNG _ i :: r => bind (desg f U m r) (fun x => ROk (x, int_conv i))
        | _ => bind (init2 f U m t) (fun x => ROk (x, i))
        end) (fun '((m, t), i) =>
    if (i =? 2 ^ 31 - 1)%Z then RUB
    else count f U m t (i + 1)%Z (Z.max max (i + 1)%Z)).
Lemma count_S f U (m : ini) (t : list tok) i max : count (S f) U m t i max =
  bind (comma_list t (negb (i =? 0)%Z)) (fun '(more, _) =>
    match more with None => ROk max | Some t => cstep f U m t i max end).
Proof. reflexivity. Qed.
Lemma does_count a U k l tc rest V call :
  does E compat str (IArr a U) [k] U l tc rest V true call ->
  exists D l1 l' V', l = l1 ++ l' /\ reach V = Nat.max (S k) (reach V') /\ rn (IArr a U) (nxt (IArr a U) [k]) l' = Some V' /\
    forall m, shape E U m -> exists m', goes (fun f => call f m) (m', Rest E l' tc rest) /\ shape E U m' /\ D = D.
Proof.
  intros (D & l1 & l' & V' & Ql & QV & R & Ne & H). exists D, l1, l', V'. split; [exact Ql|].
  split; [rewrite QV, reach_app, (reach_pre k [] D (Ne eq_refl)); reflexivity|]. split; [exact R|].
  intros m Sh. destruct (H m Sh) as (m' & G & Sh' & _). eauto.
Qed.
Lemma sub_arr a U j : j < a -> sub (IArr a U) [j] = Some U.
Proof. intros L. cbn [sub kid]. apply Nat.ltb_lt in L. rewrite L. reflexivity. Qed.
Lemma count_does a U : whole (IArr a U) -> forall s,
  (forall l tc rest V k mx m, lsz E l <= s -> 1 <= k <= a -> (0 <= mx)%Z -> shape E U m -> rn (IArr a U) (nxt (IArr a U) [k - 1]) l = Some V ->
     goes (fun f => count f U m (Rest E l tc rest) (Z.of_nat k) mx) (Z.max mx (Z.of_nat (reach V)))) /\
  (forall l ds i tc rest V c (k : nat) mx m, isz E i + lsz E l <= s -> (ds = [] -> c = Some [k]) -> (0 <= mx)%Z -> shape E U m -> rn (IArr a U) c ((ds, i) :: l) = Some V ->
     goes (fun f => cstep f U m (dtoks ds ++ text i ++ Rest E l tc rest) (Z.of_nat k) mx) (Z.max mx (Z.of_nat (reach V)))).
Proof.
  intros Wh. pose proof Wh as [_ [Wa WU]]. induction s as [|s [IH _]].
  - split; [|intros l ds i; pose proof (isz_pos E i); lia].
    intros l tc rest V k mx m L Lk Mx Sh R.
    assert (Ql : l = []) by (destruct l as [|[ds i] l]; [reflexivity|cbn [lsz] in L; pose proof (isz_pos E i); lia]). subst l.
    injection R as <-. replace (Z.max mx (Z.of_nat (reach []))) with mx by (cbn [reach fold_left]; unfold reach; cbn [fold_left]; lia). exists 1. intros [|f] Lf; [lia|]. rewrite count_S.
    assert (Kz : (Z.of_nat k =? 0)%Z = false) by (apply Z.eqb_neq; lia). rewrite Kz. destruct tc; reflexivity.
  - assert (Step : forall l ds i tc rest V c (k : nat) mx m, isz E i + lsz E l <= S s -> (ds = [] -> c = Some [k]) -> (0 <= mx)%Z -> shape E U m -> rn (IArr a U) c ((ds, i) :: l) = Some V ->
      goes (fun f => cstep f U m (dtoks ds ++ text i ++ Rest E l tc rest) (Z.of_nat k) mx) (Z.max mx (Z.of_nat (reach V)))).
    { intros l ds i tc rest V c k mx m Ls Hc Mx Sh R. pose proof (isz_pos E i) as Ip.
      destruct (all_claims E compat str (isz E i + lsz E l)) as (Cl & _ & Dg & _).
      cbn [run] in R. destruct ds as [|d ds].
      - rewrite (Hc eq_refl) in R. destruct (sub (IArr a U) [k]) as [U'|] eqn:S; [|discriminate].
        assert (Lk : k < a) by (cbn [sub kid] in S; destruct (Nat.ltb k a) eqn:Lk; [apply Nat.ltb_lt, Lk|discriminate]).
        rewrite (sub_arr a U k Lk) in S. injection S as <-.
        destruct (fl i U) as [[v q]|] eqn:Fi; [|discriminate].
        destruct (rn (IArr a U) (nxt (IArr a U) ([k] ++ q)) l) as [w|] eqn:R2; [|discriminate]. injection R as <-.
        pose proof (Cl i l U (IArr a U) [k] tc rest v q w (le_n _) Wh (sub_arr a U k Lk) Fi R2) as Do.
        destruct (does_count _ _ _ _ _ _ _ _ Do) as (D & l1 & l' & V' & Ql & QV & R3 & H). rewrite QV.
        destruct (H m Sh) as (m' & G & Sh' & _). subst l. rewrite lsz_app in *.
        pose proof (IH l' tc rest V' (S k) (Z.max mx (Z.of_nat (S k))) m' ltac:(lia) ltac:(lia) ltac:(lia) Sh') as Nx.
        replace (S k - 1) with k in Nx by lia. specialize (Nx R3).
        replace (Z.max mx (Z.of_nat (Nat.max (S k) (reach V')))) with (Z.max (Z.max mx (Z.of_nat (S k))) (Z.of_nat (reach V'))) by lia.
        cbn [dtoks app].
        apply goes_ext with (h := fun f => bind (bind (init2 f U m (text i ++ Rest E (l1 ++ l') tc rest)) (fun x => ROk (x, Z.of_nat k))) (fun '((m, t), i) =>
          if (i =? 2 ^ 31 - 1)%Z then RUB else count f U m t (i + 1)%Z (Z.max mx (i + 1)%Z))).
        { intros f. unfold cstep. destruct i; reflexivity. }
        apply (goes_bind _ (fun f '((m, t), i) => if (i =? 2 ^ 31 - 1)%Z then RUB else count f U m t (i + 1)%Z (Z.max mx (i + 1)%Z)) ((m', Rest E l' tc rest), Z.of_nat k)).
        + apply (goes_bind _ (fun f x => ROk (x, Z.of_nat k)) _ _ G). apply goes_ret.
        + assert (Kz : (Z.of_nat k =? 2 ^ 31 - 1)%Z = false) by (apply Z.eqb_neq; lia). rewrite Kz.
          replace (Z.of_nat k + 1)%Z with (Z.of_nat (S k)) by lia. exact Nx.
      - destruct (resolve (IArr a U) (d :: ds)) as [r|] eqn:Rs; [|discriminate].
        destruct (resolve_arr _ _ _ _ _ Rs) as (z & q' & -> & Hz & -> & Rs').
        destruct (sub (IArr a U) (Z.to_nat z :: q')) as [W|] eqn:SW; [|discriminate].
        assert (Lz : Z.to_nat z < a) by lia.
        assert (SW' : sub U q' = Some W) by (change (Z.to_nat z :: q') with ([Z.to_nat z] ++ q') in SW; rewrite (sub_app _ _ _ _ (sub_arr a U _ Lz)) in SW; exact SW).
        destruct (fl i W) as [[v q]|] eqn:Fi; [|discriminate].
        destruct (rn (IArr a U) (nxt (IArr a U) ((Z.to_nat z :: q') ++ q)) l) as [w|] eqn:R2; [|discriminate]. injection R as <-.
        pose proof (Dg i l q' ds U (IArr a U) [Z.to_nat z] tc rest W v q w (le_n _) Wh (sub_arr a U _ Lz) Rs' SW' Fi R2) as Do.
        destruct (does_count _ _ _ _ _ _ _ _ Do) as (D & l1 & l' & V' & Ql & QV & R3 & H).
        change ([Z.to_nat z] ++ q') with (Z.to_nat z :: q') in QV. rewrite QV.
        destruct (H m Sh) as (m' & G & Sh' & _). subst l. rewrite lsz_app in *.
        pose proof (IH l' tc rest V' (S (Z.to_nat z)) (Z.max mx (Z.of_nat (S (Z.to_nat z)))) m' ltac:(lia) ltac:(lia) ltac:(lia) Sh') as Nx.
        replace (S (Z.to_nat z) - 1) with (Z.to_nat z) in Nx by lia. specialize (Nx R3).
        replace (Z.max mx (Z.of_nat (Nat.max (S (Z.to_nat z)) (reach V')))) with (Z.max (Z.max mx (Z.of_nat (S (Z.to_nat z)))) (Z.of_nat (reach V'))) by lia.
        assert (Ic : int_conv z = z).
        { unfold int_conv, sext. rewrite Z.mod_small by lia. destruct (z <? 2 ^ (32 - 1))%Z eqn:Lz'; [reflexivity|]. apply Z.ltb_ge in Lz'. change (32 - 1)%Z with 31%Z in Lz'. lia. }
        apply goes_ext with (h := fun f => bind (bind (desg f U m (map dtok ds ++ EQ :: text i ++ Rest E (l1 ++ l') tc rest)) (fun x => ROk (x, z))) (fun '((m, t), i) =>
          if (i =? 2 ^ 31 - 1)%Z then RUB else count f U m t (i + 1)%Z (Z.max mx (i + 1)%Z))).
        { intros f. unfold cstep. cbn [dtoks map dtok app]. rewrite <- app_assoc, Ic. reflexivity. }
        apply (goes_bind _ (fun f '((m, t), i) => if (i =? 2 ^ 31 - 1)%Z then RUB else count f U m t (i + 1)%Z (Z.max mx (i + 1)%Z)) ((m', Rest E l' tc rest), z)).
        + apply (goes_bind _ (fun f x => ROk (x, z)) _ _ G). apply goes_ret.
        + assert (Kz : (z =? 2 ^ 31 - 1)%Z = false) by (apply Z.eqb_neq; lia). rewrite Kz.
          replace (z + 1)%Z with (Z.of_nat (S (Z.to_nat z))) by lia. exact Nx. }
    split; [|exact Step].
    intros l tc rest V k mx m L Lk Mx Sh R. assert (Kz : (Z.of_nat k =? 0)%Z = false) by (apply Z.eqb_neq; lia).
    destruct l as [|[ds i] l].
    + injection R as <-. replace (Z.max mx (Z.of_nat (reach []))) with mx by (cbn [reach fold_left]; unfold reach; cbn [fold_left]; lia). exists 1. intros [|f] Lf; [lia|]. rewrite count_S, Kz. destruct tc; reflexivity.
    + cbn [lsz] in L.
      apply goes_S with (h := fun f => cstep f U m (dtoks ds ++ text i ++ Rest E l tc rest) (Z.of_nat k) mx).
      { intros f. rewrite count_S, Kz. unfold Rest. cbn [more app negb]. rewrite <- !app_assoc.
        destruct ds as [|[z|x] ds]; cbn [dtoks map dtok app]; [destruct i; reflexivity|reflexivity..]. }
      apply (Step l ds i tc rest V (nxt (IArr a U) [k - 1])); auto. intros ->.
      cbn [nxt kid is_union] in R |- *. assert (L1 : Nat.ltb (k - 1) a = true) by (apply Nat.ltb_lt; lia). rewrite L1 in *.
      replace (S (k - 1)) with k in * by lia. destruct (Nat.ltb k a); [reflexivity|]. discriminate.
Qed.

(** * The whole *)
Theorem unknown_does i U a V rest : whole (IArr a U) -> fl i (IArr a U) = Some (V, []) -> reach V < a -> reach V <> 0 -> tidy V ->
  exists n A, goes (fun f => unknown f U (text i ++ rest)) (reach V, (n, rest)) /\ assigns (IArr (reach V) U) n = ROk A /\
  forall x b, sub (IArr (reach V) U) x = Some (IScal b) -> final (IArr (reach V) U) V x <> VOther -> final (IArr (reach V) U) A x = final (IArr (reach V) U) V x.
Proof.
  intros Wh H Lt Nz Ti. pose proof (fill_clip i U a V Wh H Lt Nz) as H'.
  assert (Wh' : whole (IArr (reach V) U)) by (destruct Wh as [_ [Wa WU]]; cbn [whole]; repeat split; [exact Nz|lia|exact WU]).
  destruct (initializer_does E compat str i (IArr (reach V) U) V rest Wh' H' Ti) as (n & A & [N G] & QA & Fin).
  exists n, A. split; [|split; [exact QA|exact Fin]]. clear Fin QA A.
  destruct (strs E str (IArr (reach V) U) (text i ++ rest)) as [[s r]|] eqn:St.
  - (* a string literal *)
    assert (Ls : length s = reach V).
    { assert (Q : forall e s', chars (IArr a U) = true -> str e = Some s' -> fl (IE e) (IArr a U) = Some (V, []) -> length s' = reach V).
      { intros e s' C Se Hi. cbn [fill dive] in Hi. rewrite C, Se in Hi. injection Hi as <-. rewrite reach_cons, reach_string in *. cbn [place Nat.max] in *.
        destruct (Nat.min a (length s')) eqn:M; lia. }
      unfold strs in St. change (chars (IArr (reach V) U)) with (chars (IArr a U)) in St. destruct (chars (IArr a U)) eqn:C; [|discriminate].
      destruct i as [e|e z|l tc].
      - cbn [text app is_str_tok] in St. destruct (str e) as [s'|] eqn:Se; [|discriminate]. injection St as <- _. apply (Q e s' eq_refl Se H).
      - exfalso. cbn [fill dive] in H. rewrite C in H. discriminate.
      - rewrite text_IB in St. destruct (fill_IB E compat str _ _ _ _ _ H) as [(Sc & _)|[(_ & e & z & -> & Se & -> & Hi)|(Ns & Nst & _ & V' & -> & R)]]; [discriminate| |].
        + cbn [items dtoks text app more is_str_tok] in St. rewrite Se in St. injection St as <- _. apply (Q e z eq_refl Se Hi).
        + exfalso. pose proof (strs_items E str (IArr a U) l tc rest) as X. unfold strs in X. rewrite C in X. rewrite X in St; [discriminate|].
          intros _ e Qe _. apply (Nst C e Qe). }
    specialize (G (S N) ltac:(lia)). rewrite init2_S, St in G. injection G as <- <-.
    exists 0. intros f _. unfold BrcModel.unknown. unfold strs in St. change (chars (IArr (reach V) U)) with (chars (IArr 0 U)) in St.
    rewrite St, Ls. reflexivity.
  - (* braces *)
    assert (Br : exists l tc V', i = IB l tc /\ V = Clear [] :: V' /\ rn (IArr a U) (Some [0]) l = Some V').
    { destruct i as [e|e z|l tc].
      - exfalso. cbn [fill dive] in H'. unfold strs in St. destruct (chars (IArr (reach V) U)).
        + cbn [text app is_str_tok] in St. destruct (str e) as [s'|]; [discriminate|]. cbn [andb] in H'. destruct (dive compat false e None false U) as [[v0 q0]|]; discriminate.
        + destruct (dive compat false e (str e) false U) as [[v0 q0]|]; discriminate.
      - exfalso. cbn [fill dive] in H. destruct (chars (IArr a U)); [discriminate|]. destruct (dive compat false e None true U) as [[v0 q0]|]; discriminate.
      - destruct (fill_IB E compat str _ _ _ _ _ H) as [(Sc & _)|[(C & e & z & -> & Se & -> & Hi)|(Ns & Nst & _ & V' & -> & R)]]; [discriminate| |eauto 6].
        exfalso. unfold strs in St. change (chars (IArr (reach V) U)) with (chars (IArr a U)) in St. rewrite C in St.
        rewrite text_IB in St. cbn [items dtoks text app more is_str_tok] in St. rewrite Se in St. discriminate. }
    destruct Br as (l & tc & V' & -> & -> & R). rewrite reach_cons in *. cbn [place Nat.max] in *.
    rewrite text_IB in *.
    assert (Cn : goes (fun f => count f U (new U) (items E l tc ++ RB :: rest) 0 0) (Z.of_nat (reach V'))).
    { destruct l as [|[ds i] l]; [injection R as <-; cbn in Nz; congruence|].
      destruct (count_does a U Wh (isz E i + lsz E l)) as [_ St1].
      specialize (St1 l ds i tc rest V' (Some [0]) 0 0%Z (new U) (le_n _) (fun _ => eq_refl) (Z.le_refl 0) (new_shape E U) R).
      replace (Z.max 0 (Z.of_nat (reach V'))) with (Z.of_nat (reach V')) in St1 by lia.
      refine (goes_S _ _ _ _ St1). intros f. rewrite count_S. cbn [items Z.eqb negb]. rewrite <- !app_assoc.
      destruct ds as [|[z|x] ds]; cbn [dtoks map dtok app]; [destruct i; reflexivity|reflexivity..]. }
    unfold strs in St. change (chars (IArr (reach V') U)) with (chars (IArr 0 U)) in St.
    apply goes_ext with (h := fun f => bind (count f U (new U) (items E l tc ++ RB :: rest) 0 0) (fun len =>
      bind (braced f (IArr (Z.to_nat len) U) (new (IArr (Z.to_nat len) U)) (items E l tc ++ RB :: rest)) (fun x => ROk (Z.to_nat len, x)))).
    { intros f. unfold BrcModel.unknown. rewrite St. reflexivity. }
    apply (goes_bind _ (fun f len => bind (braced f (IArr (Z.to_nat len) U) (new (IArr (Z.to_nat len) U)) (items E l tc ++ RB :: rest)) (fun x => ROk (Z.to_nat len, x))) _ _ Cn).
    rewrite Nat2Z.id. apply (goes_bind _ (fun f x => ROk (reach V', x)) (n, rest)); [|apply goes_ret].
    exists N. intros f Lf. specialize (G (S f) ltac:(lia)). rewrite init2_S in G. unfold strs in G.
    change (chars (IArr (reach V') U)) with (chars (IArr 0 U)) in G. rewrite St in G. exact G.
Qed.
End Count.
