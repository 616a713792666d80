(** The parser of initializers ends on every input. *)
From Coq Require Import String ZArith List Bool Lia PeanoNat.
From Verif Require Import Base BrcSpec BrcModel BrcTree BrcParse.
Import ListNotations.
Local Open Scope list_scope.

Section Ends.
Variable E : Type.
Variable compat : E -> ity -> bool.
Variable str : E -> option (list Z).
Notation tok := (itok E).
Notation ini := (ini E).
Notation init2 := (init2 compat str).
Notation listi := (listi compat str).
Notation braced := (braced compat str).
Notation loop := (loop compat str).
Notation desg := (desg compat str).
Notation each := (each compat str).
Implicit Types (n m c : ini) (t : list tok) (T U W : ity).

(** The result does not depend on the fuel from some point on. *)
Definition fin {A} (P : A -> Prop) (g : nat -> res A) : Prop :=
  exists N r, (forall f, N <= f -> g f = r) /\ match r with ROk a => P a | RFuel => False | _ => True end.
Lemma fin_ret {A} (P : A -> Prop) r : match r with ROk a => P a | RFuel => False | _ => True end -> fin P (fun _ => r).
Proof. intros H. exists 0, r. auto. Qed.
Lemma fin_S {A} (P : A -> Prop) (g h : nat -> res A) : (forall f, g (S f) = h f) -> fin P h -> fin P g.
Proof. intros H (N & r & G & Q). exists (S N), r. split; [|exact Q]. intros [|f] L; [lia|]. rewrite H. apply G. lia. Qed.
Lemma fin_ext {A} (P : A -> Prop) (g h : nat -> res A) : (forall f, g f = h f) -> fin P h -> fin P g.
Proof. intros H (N & r & G & Q). exists N, r. split; [|exact Q]. intros f L. rewrite H. apply G, L. Qed.
Lemma fin_bind {A B} (P : A -> Prop) (Q : B -> Prop) (g : nat -> res A) (h : nat -> A -> res B) :
  fin P g -> (forall a, P a -> fin Q (fun f => h f a)) -> fin Q (fun f => bind (g f) (h f)).
Proof.
  intros (N & r & G & Pr) H. destruct r as [a| | |]; [| | |contradiction].
  - destruct (H a Pr) as (M & r & G2 & Qr). exists (N + M), r. split; [|exact Qr]. intros f L. rewrite G by lia. apply G2. lia.
  - exists N, RErr. split; [|exact Logic.I]. intros f L. rewrite G by exact L. reflexivity.
  - exists N, RUB. split; [|exact Logic.I]. intros f L. rewrite G by exact L. reflexivity.
Qed.
Lemma fin_bind0 {A B} (P : A -> Prop) (Q : B -> Prop) r (h : nat -> A -> res B) :
  match r with ROk a => P a | RFuel => False | _ => True end -> (forall a, P a -> fin Q (fun f => h f a)) -> fin Q (fun f => bind r (h f)).
Proof. intros H. apply (fin_bind P Q (fun _ => r)). apply fin_ret, H. Qed.
Lemma fin_weak {A} (P Q : A -> Prop) g : (forall a, P a -> Q a) -> fin P g -> fin Q g.
Proof. intros H (N & r & G & Pr). exists N, r. split; [exact G|]. destruct r; auto. Qed.

Definition post T (k : nat) (a : ini * list tok) : Prop := shape E T (fst a) /\ length (snd a) <= k.
Lemma post_le T j k a : j <= k -> post T j a -> post T k a.
Proof. intros L [H1 H2]. split; [exact H1|lia]. Qed.
Lemma fin_child T n i k (g : nat -> ity -> ini -> res (ini * list tok)) : shape E T n ->
  (forall U c, kid T i = Some U -> shape E U c -> fin (post U k) (fun f => g f U c)) -> fin (post T k) (fun f => on_child T n i (g f)).
Proof.
  intros Sh H. destruct (kid T i) as [U|] eqn:K.
  - destruct (shape_kid E T n i U Sh K) as (c & N & Sc).
    apply fin_ext with (h := fun f => bind (g f U c) (fun '(c', a) => ROk (with_arr n (upd (arr n) i c'), a))).
    { intros f. apply (on_child_eq E T n i U c (g f) K N). }
    apply (fin_bind (post U k) _ _ (fun f '(c', a) => ROk (with_arr n (upd (arr n) i c'), a)) (H U c eq_refl Sc)). intros [c' a] [S1 S2]. apply fin_ret.
    split; [|exact S2]. destruct n as [k0 s0 m0]. apply (shape_upd E T (Ini k0 s0 m0) i U); assumption.
  - apply fin_ext with (h := fun _ => RUB); [|apply fin_ret, Logic.I]. intros f. unfold on_child. rewrite K. reflexivity.
Qed.
Lemma shape_with_kind T n k : shape E T n -> shape E T (with_kind k n).
Proof. apply shape_arr. destruct n; reflexivity. Qed.
Lemma shape_with_slot T n s : shape E T n -> shape E T (with_slot s n).
Proof. apply shape_arr. destruct n; reflexivity. Qed.
Lemma shape_set T n s : shape E T n -> shape E T (set s n).
Proof. apply shape_arr. destruct n; reflexivity. Qed.
Lemma puts_len (ms : list ini) s : length (puts ms s) = length ms.
Proof. revert s. induction ms as [|c ms IH]; intros [|z s]; cbn [puts length]; auto. Qed.
Lemma shape_puts T n s : chars T = true -> shape E T n -> shape E T (string_initializer s n).
Proof.
  intros C Sh. destruct T as [|k [b| |]|]; try discriminate. cbn in C. subst b.
  pose proof (shape_len E _ _ Sh) as L. cbn [kids] in L.
  destruct (puts_shape E k (arr n) s L) as [L1 L2].
  { intros j c N. assert (Lj : j < k) by (rewrite <- L; apply nth_error_Some; congruence).
    destruct (shape_kid E (IArr k (IScal true)) n j (IScal true) Sh) as (c' & N' & Sc); [cbn [kid]; apply Nat.ltb_lt in Lj; rewrite Lj; reflexivity|].
    rewrite N in N'. injection N' as <-. exact Sc. }
  apply shape_intro; [destruct n; exact L1|]. intros j X KX. cbn [kid] in KX. destruct (Nat.ltb j k) eqn:Lj; [|discriminate]. injection KX as <-.
  apply Nat.ltb_lt in Lj. destruct (nth_error (puts (arr n) s) j) as [c|] eqn:Nj.
  - exists c. split; [destruct n; exact Nj|apply (L2 j c Nj)].
  - apply nth_error_None in Nj. lia.
Qed.
Lemma strs_len T t s r : strs E str T t = Some (s, r) -> chars T = true /\ length r <= length t.
Proof.
  unfold strs. destruct (chars T); [|discriminate].
  assert (Is : forall t s r, is_str_tok str t = Some (s, r) -> length r <= length t).
  { intros t' s' r' H. destruct t' as [|x t']; [discriminate|]. destruct x; cbn [is_str_tok] in H; try discriminate.
    - destruct (str e); [|discriminate]. injection H as _ <-. cbn [length]. lia.
    - injection H as _ <-. cbn [length]. lia. }
  intros H. split; [reflexivity|]. destruct t as [|x t]; [discriminate|].
  destruct x; try (apply (Is _ _ _ H)).
  destruct (is_str_tok str t) as [[s' [|y r']]|] eqn:Q.
  - apply (Is _ _ _ H).
  - destruct y; try (apply (Is _ _ _ H)). injection H as _ <-. apply Is in Q. cbn [length] in *. lia.
  - apply (Is _ _ _ H).
Qed.
Lemma assign_len t : match assign t with ROk a => length (snd a) <= length t | RFuel => False | _ => True end.
Proof. destruct t as [|[] t]; cbn; auto; lia. Qed.
Lemma skip_comma_len t : match skip_comma t with ROk a => length a < length t | RFuel => False | _ => True end.
Proof. destruct t as [|[] t]; cbn; auto; lia. Qed.
Lemma skip_rb_len t : match skip_rb t with ROk a => length a < length t | RFuel => False | _ => True end.
Proof. destruct t as [|[] t]; cbn; auto; lia. Qed.
Lemma skip_excess_len t : match skip_excess t with ROk a => length a < length t | RFuel => False | _ => True end.
Proof.
  induction t as [|x t IH]; [exact Logic.I|]. destruct x; cbn [skip_excess]; try exact Logic.I; [cbn [length]; lia..|].
  destruct (skip_excess t) as [a| | |]; cbn [bind]; auto. pose proof (skip_rb_len a) as H. destruct (skip_rb a); auto. cbn [length]. lia.
Qed.

Definition cI (k : nat) : Prop := forall T t n, length t <= k -> shape E T n -> fin (post T (length t)) (fun f => init2 f T n t).
Definition cL (k : nat) : Prop := forall T t n i, length t <= k -> shape E T n -> fin (post T (length t)) (fun f => listi f T n t (S i)).
Definition cD (k : nat) : Prop := forall T t n, length t <= k -> shape E T n -> fin (post T (length t - 1)) (fun f => desg f T n t).
Definition cB (k : nat) : Prop := forall T t n, length t <= k -> shape E T n -> fin (post T (length t)) (fun f => braced f T n t).

Lemma endL k : (forall j, j < k -> cI j) -> cL k.
Proof.
  intros H T t n i Lt Sh. remember (length (arr n) - S i) as d eqn:Qd. revert t n i Lt Sh Qd.
  induction d as [|d IH]; intros t n i Lt Sh Qd.
  - apply fin_S with (h := fun _ => ROk (n, t)); [|apply fin_ret; split; [exact Sh|cbn [snd]; lia]].
    intros f. rewrite listi_S. assert (L : Nat.ltb (S i) (length (arr n)) = false) by (apply Nat.ltb_ge; lia). rewrite L. reflexivity.
  - assert (L : Nat.ltb (S i) (length (arr n)) = true) by (apply Nat.ltb_lt; lia).
    destruct (at_rb t) eqn:Rb.
    { apply fin_S with (h := fun _ => ROk (n, t)); [|apply fin_ret; split; [exact Sh|cbn [snd]; lia]].
      intros f. rewrite listi_S, L, Rb. reflexivity. }
    apply fin_S with (h := fun f => bind (skip_comma t) (fun t2 => if stops t2 then ROk (n, t)
      else bind (on_child T n (S i) (fun U c => init2 f U c t2)) (fun '(n, t) => listi f T n t (S (S i))))).
    { intros f. rewrite listi_S, L, Rb. reflexivity. }
    apply (fin_bind0 (fun t2 => length t2 < length t) _ (skip_comma t) (fun f t2 => if stops t2 then ROk (n, t)
      else bind (on_child T n (S i) (fun U c => init2 f U c t2)) (fun '(n, t) => listi f T n t (S (S i)))) (skip_comma_len t)).
    intros t2 L2. destruct (stops t2); [apply fin_ret; split; [exact Sh|cbn [snd]; lia]|].
    apply (fin_bind (fun a => post T (length t2) a /\ length (arr (fst a)) = length (arr n)) _ _ (fun f '(n, t) => listi f T n t (S (S i)))).
    + assert (X : fin (post T (length t2)) (fun f => on_child T n (S i) (fun U c => init2 f U c t2))).
      { apply (fin_child T n (S i) (length t2) (fun f U c => init2 f U c t2) Sh). intros U c K Sc. apply (H (length t2)); [lia|lia|exact Sc]. }
      revert X. apply fin_weak. intros a [P1 P2]. split; [split; assumption|]. rewrite (shape_len E T _ P1), (shape_len E T _ Sh). reflexivity.
    + intros [n' t'] [[P1 P2] P3]. cbn [fst snd] in *. apply fin_weak with (P := post T (length t')); [intros a; apply post_le; lia|].
      apply IH; [lia|exact P1|lia].
Qed.
Lemma endI k : (forall j, j < k -> cI j) -> (forall j, j < k -> cB j) -> cL k -> cI k.
Proof.
  intros Hi Hb Hl T. induction T as [T IH] using ity_kids_ind. intros t n Lt Sh.
  destruct (strs E str T t) as [[s r]|] eqn:St.
  { apply fin_S with (h := fun _ => ROk (string_initializer s n, r)); [intros f; rewrite init2_S, St; reflexivity|].
    destruct (strs_len _ _ _ _ St) as [C L]. apply fin_ret. split; [apply shape_puts; assumption|exact L]. }
  assert (L0 : t = [] \/ hd RB t <> LB -> fin (post T (length t)) (fun f => listi f T n t 0)).
  { intros _. destruct (Nat.ltb 0 (length (arr n)) && negb (at_rb t) && negb (stops t)) eqn:C.
    - apply fin_S with (h := fun f => bind (on_child T n 0 (fun U c => init2 f U c t)) (fun '(n, t) => listi f T n t 1)).
      { intros f. rewrite listi_S. apply andb_prop in C. destruct C as [C1 C2]. rewrite C1. cbn [bind]. apply negb_true_iff in C2. rewrite C2. reflexivity. }
      apply (fin_bind (post T (length t)) _ _ (fun f '(n, t) => listi f T n t 1)).
      + apply (fin_child T n 0 (length t) (fun f U c => init2 f U c t) Sh). intros U c K Sc. apply (IH 0 U K t c Lt Sc).
      + intros [n' t'] [P1 P2]. cbn [fst snd] in *. apply fin_weak with (P := post T (length t')); [intros a; apply post_le; lia|]. apply Hl; [lia|exact P1].
    - apply fin_S with (h := fun _ => ROk (n, t)); [|apply fin_ret; split; [exact Sh|cbn [snd]; lia]].
      intros f. rewrite listi_S. destruct (Nat.ltb 0 (length (arr n)) && negb (at_rb t)); [|reflexivity]. cbn [andb] in C. cbn [bind].
      apply negb_false_iff in C. rewrite C. reflexivity. }
  destruct (match t with LB :: r => Some r | _ => None end) as [r|] eqn:Lb.
  - assert (Qt : t = LB :: r) by (destruct t as [|[] t]; try discriminate; injection Lb as ->; reflexivity). subst t. cbn [length] in *.
    assert (Br : forall n0, shape E T n0 -> fin (post T (S (length r))) (fun f => braced f T n0 r)).
    { intros n0 S0. apply fin_weak with (P := post T (length r)); [intros a; apply post_le; lia|]. apply (Hb (length r)); [lia|lia|exact S0]. }
    destruct T as [b|a t|[] ms].
    + apply fin_S with (h := fun f => bind (init2 f (IScal b) n r) (fun '(n, t) => bind (skip_rb t) (fun r => ROk (n, r)))); [intros f; rewrite init2_S, St; reflexivity|].
      apply (fin_bind (post (IScal b) (length r)) _ _ (fun f '(n, t) => bind (skip_rb t) (fun r => ROk (n, r))) (Hi (length r) ltac:(lia) _ r n (le_n _) Sh)).
      intros [n' t'] [P1 P2]. cbn [fst snd] in *. apply fin_ret. pose proof (skip_rb_len t') as X. destruct (skip_rb t'); cbn [bind]; auto. split; [exact P1|cbn [snd]; lia].
    + apply fin_S with (h := fun f => braced f (IArr a t) n r); [intros f; rewrite init2_S, St; reflexivity|]. apply Br, Sh.
    + apply fin_S with (h := fun f => braced f (IStr true ms) (with_slot (SMem 0) n) r); [intros f; rewrite init2_S, St; reflexivity|]. apply Br, shape_with_slot, Sh.
    + apply fin_S with (h := fun f => braced f (IStr false ms) n r); [intros f; rewrite init2_S, St; reflexivity|]. apply Br, Sh.
  - assert (Nb : forall X (a : list tok -> X) b, match t with LB :: r => a r | _ => b end = b) by (intros X a b; destruct t as [|[] t]; try discriminate; reflexivity).
    assert (L0' : fin (post T (length t)) (fun f => listi f T n t 0)) by (apply L0; destruct t as [|[] t]; try discriminate; [left; reflexivity|right; discriminate..]).
    destruct T as [b|a u|[] ms].
    + apply fin_S with (h := fun _ => bind (assign t) (fun '(e, r) => ROk (set (SE e) n, r))); [intros f; rewrite init2_S, St, Nb; reflexivity|].
      apply fin_ret. pose proof (assign_len t) as X. destruct (assign t) as [[e r]| | |]; cbn [bind]; auto. split; [apply shape_set, Sh|exact X].
    + apply fin_S with (h := fun f => listi f (IArr a u) n t 0); [intros f; rewrite init2_S, St, Nb; reflexivity|]. exact L0'.
    + apply fin_S with (h := fun f => bind (assign t) (fun '(e, r) => if compat e (IStr true ms) then ROk (set (SE e) n, r)
        else on_child (IStr true ms) (with_slot (SMem 0) n) 0 (fun U c => init2 f U c t))); [intros f; rewrite init2_S, St, Nb; reflexivity|].
      apply (fin_bind0 (fun a => length (snd a) <= length t) _ (assign t) (fun f '(e, r) => if compat e (IStr true ms) then ROk (set (SE e) n, r)
        else on_child (IStr true ms) (with_slot (SMem 0) n) 0 (fun U c => init2 f U c t)) (assign_len t)).
      intros [e r] Lr. destruct (compat e (IStr true ms)); [apply fin_ret; split; [apply shape_set, Sh|exact Lr]|].
      apply (fin_child (IStr true ms) (with_slot (SMem 0) n) 0 (length t) (fun f U c => init2 f U c t) (shape_with_slot _ _ _ Sh)). intros U c K Sc. apply (IH 0 U K t c Lt Sc).
    + apply fin_S with (h := fun f => bind (assign t) (fun '(e, r) => if compat e (IStr false ms) then ROk (set (SE e) n, r)
        else listi f (IStr false ms) n t 0)); [intros f; rewrite init2_S, St, Nb; reflexivity|].
      apply (fin_bind0 (fun a => length (snd a) <= length t) _ (assign t) (fun f '(e, r) => if compat e (IStr false ms) then ROk (set (SE e) n, r)
        else listi f (IStr false ms) n t 0) (assign_len t)).
      intros [e r] Lr. destruct (compat e (IStr false ms)); [apply fin_ret; split; [apply shape_set, Sh|exact Lr]|]. exact L0'.
Qed.
Lemma member_kid T s k named : member T s = Some (k, named) -> is_scalar T = false.
Proof. destruct T; [discriminate|reflexivity..]. Qed.
Lemma endD k : (forall j, j < k -> cI j) -> (forall j, j < k -> cD j) -> (forall j, j < k -> cL j) -> cD k.
Proof.
  intros Hi Hd Hl T. induction T as [T IH] using ity_kids_ind. intros t n Lt Sh.
  destruct (match t with IDX i :: r => Some (i, i, r) | RNG i j :: r => Some (i, j, r) | _ => None end) as [[[i j] r]|] eqn:Ix.
  - assert (Lr : length t = S (length r)) by (destruct t as [|[] t]; try discriminate; injection Ix as _ _ ->; reflexivity).
    replace (length t - 1) with (length r) by lia.
    destruct T as [b|a u|un ms].
    1, 3: apply fin_S with (h := fun _ => RErr); [intros f; cbn [BrcModel.desg]; rewrite Ix; reflexivity|apply fin_ret, Logic.I].
    apply fin_S with (h := fun f => bind (array_designator a i j) (fun '(b, e) =>
            if (b <? 0)%Z then RUB
            else bind (each f (IArr a u) (with_kind KList n) r (Z.to_nat b) (Datatypes.S (Z.to_nat e - Z.to_nat b)) r)
                   (fun '(n, t) => listi f (IArr a u) n t (Datatypes.S (Z.to_nat e))))); [intros f; cbn [BrcModel.desg]; rewrite Ix; reflexivity|].
    apply (fin_bind0 (fun _ => True) _ (array_designator a i j) (fun f '(b, e) =>
            if (b <? 0)%Z then RUB
            else bind (each f (IArr a u) (with_kind KList n) r (Z.to_nat b) (Datatypes.S (Z.to_nat e - Z.to_nat b)) r)
                   (fun '(n, t) => listi f (IArr a u) n t (Datatypes.S (Z.to_nat e))))).
    { unfold array_designator. destruct (_ <=? _)%Z; [exact Logic.I|]. destruct (_ <=? _)%Z; [exact Logic.I|]. destruct (_ <? _)%Z; exact Logic.I. }
    intros [b e] _. destruct (b <? 0)%Z; [apply fin_ret, Logic.I|].
    apply (fin_bind (post (IArr a u) (length r)) _ _ (fun f '(n, t) => listi f (IArr a u) n t (S (Z.to_nat e)))).
    + generalize (Z.to_nat b). generalize (S (Z.to_nat e - Z.to_nat b)). intros cnt x.
      assert (G : forall cnt x m t', shape E (IArr a u) m -> length t' <= length r -> fin (post (IArr a u) (length r)) (fun f => each f (IArr a u) m r x cnt t')).
      { clear cnt x. induction cnt as [|cnt IHc]; intros x m t' Sm Lt'.
        - apply fin_S with (h := fun _ => ROk (m, t')); [intros f; reflexivity|]. apply fin_ret. split; [exact Sm|exact Lt'].
        - apply fin_S with (h := fun f => bind (on_child (IArr a u) m x (fun U m => desg f U m r)) (fun '(n, t) => each f (IArr a u) n r (S x) cnt t)); [intros f; apply each_S|].
          apply (fin_bind (post (IArr a u) (length r)) _ _ (fun f '(n, t) => each f (IArr a u) n r (S x) cnt t)).
          + apply (fin_child (IArr a u) m x (length r) (fun f U m => desg f U m r) Sm). intros U c K Sc.
            apply fin_weak with (P := post U (length r - 1)); [intros z; apply post_le; lia|]. apply (Hd (length r)); [lia|lia|exact Sc].
          + intros [n' t2] [P1 P2]. apply IHc; assumption. }
      apply G; [apply shape_with_kind, Sh|lia].
    + intros [n' t'] [P1 P2]. cbn [fst snd] in *. apply fin_weak with (P := post (IArr a u) (length t')); [intros z; apply post_le; lia|]. apply (Hl (length r)); [lia|exact P2|exact P1].
  - destruct (match t with DOT s :: r => Some (s, r) | _ => None end) as [[s r]|] eqn:Dt.
    + assert (Qt : t = DOT s :: r) by (destruct t as [|[] t]; try discriminate; injection Dt as -> ->; reflexivity). subst t. cbn [length] in *.
      replace (S (length r) - 1) with (length r) by lia.
      destruct (member T s) as [[kk named]|] eqn:Mb.
      2: apply fin_S with (h := fun _ => RErr); [intros f; rewrite desg_dot, Mb; reflexivity|apply fin_ret, Logic.I].
      assert (Ch : forall U c, kid T kk = Some U -> shape E U c -> fin (post U (length r)) (fun f => desg f U c (if named then r else DOT s :: r))).
      { intros U c K Sc. destruct named.
        - apply fin_weak with (P := post U (length r - 1)); [intros z; apply post_le; lia|]. apply (Hd (length r)); [lia|lia|exact Sc].
        - pose proof (IH kk U K (DOT s :: r) c Lt Sc) as X. cbn [length] in X. replace (S (length r) - 1) with (length r) in X by lia. exact X. }
      destruct (is_union T) eqn:Un.
      * apply fin_S with (h := fun f => on_child T (with_slot (SMem kk) (with_kind KList n)) kk (fun U c => desg f U c (if named then r else DOT s :: r))); [intros f; rewrite desg_dot, Mb, Un; reflexivity|].
        apply (fin_child T (with_slot (SMem kk) (with_kind KList n)) kk (length r) (fun f U c => desg f U c (if named then r else DOT s :: r))); [apply shape_with_slot, shape_with_kind, Sh|exact Ch].
      * apply fin_S with (h := fun f => bind (on_child T (with_kind KList n) kk (fun U c => desg f U c (if named then r else DOT s :: r))) (fun '(n, t) => listi f T n t (S kk))); [intros f; rewrite desg_dot, Mb, Un; reflexivity|].
        apply (fin_bind (post T (length r)) _ _ (fun f '(n, t) => listi f T n t (S kk))).
        -- apply (fin_child T (with_kind KList n) kk (length r) (fun f U c => desg f U c (if named then r else DOT s :: r)) (shape_with_kind _ _ _ Sh)). exact Ch.
        -- intros [n' t'] [P1 P2]. cbn [fst snd] in *. apply fin_weak with (P := post T (length t')); [intros z; apply post_le; lia|]. apply (Hl (length r)); [lia|exact P2|exact P1].
    + apply fin_S with (h := fun f => bind (skip_eq t) (fun r => init2 f T n r)).
      { intros f. cbn [BrcModel.desg]. rewrite Ix. destruct t as [|[] t]; try discriminate; reflexivity. }
      destruct t as [|[] t]; try discriminate; cbn [skip_eq bind]; try (apply fin_ret; exact Logic.I).
      cbn [length] in *. replace (S (length t) - 1) with (length t) by lia. apply (Hi (length t)); [lia|lia|exact Sh].
Qed.
Lemma endLoop k T : cD k -> forall t n start, length t <= k -> shape E T n -> fin (post T (length t)) (fun f => loop f T n t start).
Proof.
  intros Hd t. induction t as [t IH] using (induction_ltof1 _ (@length tok)). unfold ltof in IH. intros n start Lt Sh.
  apply fin_S with (h := fun f => bind (comma_list t (negb (Nat.eqb (length t) start))) (fun '(more, r) =>
    match more with
    | None => ROk (n, r)
    | Some t =>
        match t with
        | IDX _ :: _ | RNG _ _ :: _ | DOT _ :: _ => bind (desg f T n t) (fun '(n, t) => loop f T n t start)
        | _ => bind (skip_excess t) (fun t => loop f T n t start)
        end
    end)); [intros f; apply loop_S|].
  set (sc := negb (Nat.eqb (length t) start)). clearbody sc.
  apply (fin_bind0 (fun a => length (snd a) <= length t /\ match fst a with Some t' => length t' <= length t | None => True end) _ (comma_list t sc) (fun f '(more, r) =>
    match more with
    | None => ROk (n, r)
    | Some t =>
        match t with
        | IDX _ :: _ | RNG _ _ :: _ | DOT _ :: _ => bind (desg f T n t) (fun '(n, t) => loop f T n t start)
        | _ => bind (skip_excess t) (fun t => loop f T n t start)
        end
    end)).
  { assert (X : forall t, match (if sc then match t with COMMA :: RB :: r => ROk (None, r) | COMMA :: r => ROk (Some r, r) | _ => RErr end else ROk (Some t, t)) with
      | ROk a => length (snd a) <= length t /\ match fst a with Some t' => length t' <= length t | None => True end | RFuel => False | _ => True end).
    { intros t0. destruct sc; [|cbn [fst snd]; lia]. destruct t0 as [|[] t0]; try exact Logic.I.
      destruct t0 as [|[] t1]; cbn [fst snd length]; repeat split; lia. }
    unfold comma_list. specialize (X t). clear IH Lt. destruct t as [|x t]; [exact X|]. destruct x; try exact X. cbn [fst snd length]. split; [lia|exact Logic.I]. }
  intros [[t1|] r] [L1 L2]; cbn [fst snd] in *; [|apply fin_ret; split; [exact Sh|exact L1]].
  assert (Ex : fin (post T (length t)) (fun f => bind (skip_excess t1) (fun t => loop f T n t start))).
  { apply (fin_bind0 (fun a => length a < length t1) _ (skip_excess t1) (fun f t => loop f T n t start) (skip_excess_len t1)).
    intros t2 Lt2. apply fin_weak with (P := post T (length t2)); [intros z; apply post_le; lia|]. apply IH; [lia|lia|exact Sh]. }
  assert (De : t1 <> [] -> fin (post T (length t)) (fun f => bind (desg f T n t1) (fun '(n, t) => loop f T n t start))).
  { intros N1. assert (1 <= length t1) by (destruct t1; [congruence|cbn [length]; lia]).
    apply (fin_bind (post T (length t1 - 1)) _ _ (fun f '(n, t) => loop f T n t start)); [apply (Hd T t1 n); [lia|exact Sh]|].
    intros [n' t'] [P1 P2]. cbn [fst snd] in *. apply fin_weak with (P := post T (length t')); [intros z; apply post_le; lia|]. apply IH; [lia|lia|exact P1]. }
  destruct t1 as [|[] t1]; try exact Ex; apply De; discriminate.
Qed.
Lemma endList k T : cI k -> cL k -> forall t n, length t <= k -> shape E T n -> fin (post T (length t)) (fun f => listi f T n t 0).
Proof.
  intros Hi Hl t n Lt Sh. destruct (Nat.ltb 0 (length (arr n)) && negb (at_rb t) && negb (stops t)) eqn:C.
  - apply fin_S with (h := fun f => bind (on_child T n 0 (fun U c => init2 f U c t)) (fun '(n, t) => listi f T n t 1)).
    { intros f. rewrite listi_S. apply andb_prop in C. destruct C as [C1 C2]. rewrite C1. cbn [bind]. apply negb_true_iff in C2. rewrite C2. reflexivity. }
    apply (fin_bind (post T (length t)) _ _ (fun f '(n, t) => listi f T n t 1)).
    + apply (fin_child T n 0 (length t) (fun f U c => init2 f U c t) Sh). intros U c K Sc. apply (Hi U t c Lt Sc).
    + intros [n' t'] [P1 P2]. cbn [fst snd] in *. apply fin_weak with (P := post T (length t')); [intros a; apply post_le; lia|]. apply Hl; [lia|exact P1].
  - apply fin_S with (h := fun _ => ROk (n, t)); [|apply fin_ret; split; [exact Sh|cbn [snd]; lia]].
    intros f. rewrite listi_S. destruct (Nat.ltb 0 (length (arr n)) && negb (at_rb t)); [|reflexivity]. cbn [andb] in C. cbn [bind].
    apply negb_false_iff in C. rewrite C. reflexivity.
Qed.
Lemma endB k : cI k -> cL k -> cD k -> cB k.
Proof.
  intros Hi Hl Hd T t n Lt Sh. apply fin_S with (h := fun f => bind (listi f T n t 0) (fun '(n, t') => loop f T n t' (length t))); [intros f; apply braced_S|].
  apply (fin_bind (post T (length t)) _ _ (fun f '(n, t') => loop f T n t' (length t))).
  - apply (endList k); assumption.
  - intros [n' t'] [P1 P2]. cbn [fst snd] in *. apply fin_weak with (P := post T (length t')); [intros a; apply post_le; lia|].
    apply (endLoop k T Hd); [lia|exact P1].
Qed.
Lemma end_all k : cI k /\ cL k /\ cD k /\ cB k.
Proof.
  induction k as [k IH] using (well_founded_induction Wf_nat.lt_wf).
  assert (L : cL k) by (apply endL; intros j Lj; apply (IH j Lj)).
  assert (I0 : cI k) by (apply endI; [intros j Lj; apply (IH j Lj)|intros j Lj; apply (IH j Lj)|exact L]).
  assert (D : cD k) by (apply endD; intros j Lj; apply (IH j Lj)).
  split; [exact I0|]. split; [exact L|]. split; [exact D|]. apply endB; assumption.
Qed.
Theorem init2_ends T t : exists N r, r <> RFuel /\ forall f, N <= f -> init2 f T (new T) t = r.
Proof.
  destruct (end_all (length t)) as (Hi & _). destruct (Hi T t (new T) (le_n _) (new_shape E T)) as (N & r & G & P).
  exists N, r. split; [|exact G]. intros ->. exact P.
Qed.
Notation count := (count compat str).
Notation unknown := (unknown compat str).
Lemma endC U : forall k t n i mx, length t * 2 + (if (i =? 0)%Z then 1 else 0) < k -> shape E U n -> fin (fun _ : Z => True) (fun f => count f U n t i mx).
Proof.
  induction k as [|k IH]; intros t n i mx Lk Sh; [lia|].
  apply fin_S with (h := fun f => bind (comma_list t (negb (i =? 0)%Z)) (fun '(more, _) =>
    match more with
    | None => ROk mx
    | Some t =>
        bind (match t with
              | IDX i :: r | RNG _ i :: r => bind (desg f U n r) (fun x => ROk (x, int_conv i))
              | _ => bind (init2 f U n t) (fun x => ROk (x, i))
              end) (fun '((m, t), i) =>
          if (i =? 2 ^ 31 - 1)%Z then RUB
          else count f U m t (i + 1)%Z (Z.max mx (i + 1)%Z))
    end)); [intros f; reflexivity|].
  apply (fin_bind0 (fun a => match fst a with Some t' => length t' <= length t /\ ((i =? 0)%Z = false -> length t' < length t) | None => True end) _ (comma_list t (negb (i =? 0)%Z)) (fun f '(more, _) =>
    match more with
    | None => ROk mx
    | Some t =>
        bind (match t with
              | IDX i :: r | RNG _ i :: r => bind (desg f U n r) (fun x => ROk (x, int_conv i))
              | _ => bind (init2 f U n t) (fun x => ROk (x, i))
              end) (fun '((m, t), i) =>
          if (i =? 2 ^ 31 - 1)%Z then RUB
          else count f U m t (i + 1)%Z (Z.max mx (i + 1)%Z))
    end)).
  { unfold comma_list. destruct (i =? 0)%Z; cbn [negb].
    - clear IH Lk. destruct t as [|x t]; [cbn [fst]; split; [lia|discriminate]|]. destruct x; cbn [fst]; try (split; [lia|discriminate]). exact Logic.I.
    - clear IH Lk. destruct t as [|x t]; [exact Logic.I|]. destruct x; try exact Logic.I. destruct t as [|x t]; [cbn [fst length]; lia|]. destruct x; cbn [fst length]; try lia; exact Logic.I. }
  intros [[t1|] r] H; cbn [fst] in H; [|apply fin_ret; exact Logic.I]. destruct H as [H1 H2].
  apply (fin_bind (fun a : (ini * list tok) * Z => shape E U (fst (fst a)) /\ length (snd (fst a)) <= length t1 /\ (snd a = i \/ length (snd (fst a)) < length t1)) _ _ (fun f '((m, t), i) =>
          if (i =? 2 ^ 31 - 1)%Z then RUB
          else count f U m t (i + 1)%Z (Z.max mx (i + 1)%Z))).
  - assert (Di : forall x r0, t1 = x :: r0 -> forall z, fin (fun a : (ini * list tok) * Z => shape E U (fst (fst a)) /\ length (snd (fst a)) <= length t1 /\ (snd a = i \/ length (snd (fst a)) < length t1))
      (fun f => bind (desg f U n r0) (fun x => ROk (x, int_conv z)))).
    { intros x r0 -> z. cbn [length]. apply (fin_bind (post U (length r0 - 1)) _ _ (fun f x => ROk (x, int_conv z))).
      - destruct (end_all (length r0)) as (_ & _ & Hd & _). apply Hd; [lia|exact Sh].
      - intros [m t'] [P1 P2]. cbn [fst snd] in *. apply fin_ret. cbn [fst snd]. repeat split; [exact P1|lia|right; lia]. }
    assert (Dn : fin (fun a : (ini * list tok) * Z => shape E U (fst (fst a)) /\ length (snd (fst a)) <= length t1 /\ (snd a = i \/ length (snd (fst a)) < length t1))
      (fun f => bind (init2 f U n t1) (fun x => ROk (x, i)))).
    { apply (fin_bind (post U (length t1)) _ _ (fun f x => ROk (x, i))).
      - destruct (end_all (length t1)) as (Hi & _). apply Hi; [lia|exact Sh].
      - intros [m t'] [P1 P2]. cbn [fst snd] in *. apply fin_ret. cbn [fst snd]. repeat split; [exact P1|lia|left; reflexivity]. }
    destruct t1 as [|x t1]; [exact Dn|]. destruct x; try exact Dn; apply (Di _ _ eq_refl).
  - intros [[m t'] z] (P1 & P2 & P3). cbn [fst snd] in *. destruct (z =? 2 ^ 31 - 1)%Z; [apply fin_ret, Logic.I|].
    apply IH; [|exact P1]. destruct (i =? 0)%Z eqn:Z0; cbn [Nat.add] in Lk.
    + apply Z.eqb_eq in Z0. subst i. destruct P3 as [->|P3].
      * change (0 + 1 =? 0)%Z with false. change (0 =? 0)%Z with true in Lk. cbv iota in *. lia.
      * destruct (z + 1 =? 0)%Z; lia.
    + specialize (H2 eq_refl). destruct (z + 1 =? 0)%Z; lia.
Qed.
Theorem unknown_ends U t : exists N r, r <> RFuel /\ forall f, N <= f -> unknown f U t = r.
Proof.
  assert (X : fin (fun _ => True) (fun f => unknown f U t)).
  { unfold BrcModel.unknown. destruct (if chars (IArr 0 U) then _ else None) as [[s r]|]; [apply fin_ret, Logic.I|].
    set (p := match t with LB :: r => (true, r) | _ => (false, t) end). destruct p as [br r].
    apply (fin_bind (fun _ => True) _ _ (fun f len => let T := IArr (Z.to_nat len) U in
        bind (if br then braced f T (new T) r else listi f T (new T) r 0) (fun x => ROk (Z.to_nat len, x)))).
    - apply (endC U (S (length r * 2 + 1))); [cbn; lia|apply new_shape].
    - intros len _. cbv zeta. set (T := IArr (Z.to_nat len) U).
      apply (fin_bind (fun _ => True) _ _ (fun f x => ROk (Z.to_nat len, x))); [|intros a _; apply fin_ret, Logic.I].
      destruct (end_all (length r)) as (Hi & Hl & _ & Hb). destruct br.
      + apply fin_weak with (P := post T (length r)); [auto|]. apply Hb; [lia|apply new_shape].
      + apply fin_weak with (P := post T (length r)); [auto|].
        apply (endList (length r) T Hi Hl); [lia|apply new_shape]. }
  destruct X as (N & r & G & P). exists N, r. split; [|exact G]. intros ->. exact P.
Qed.
End Ends.
