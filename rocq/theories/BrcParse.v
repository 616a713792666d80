(** The parser of initializers follows the cursor of BrcSpec.v. *)
From Coq Require Import String ZArith List Bool Lia PeanoNat.
From Verif Require Import Base BrcSpec BrcModel BrcTree.
Import ListNotations.
Local Open Scope list_scope.

Lemma ity_kids_ind (P : ity -> Prop) : (forall T, (forall i U, kid T i = Some U -> P U) -> P T) -> forall T, P T.
Proof.
  intros H. fix IH 1. intros T. apply H. destruct T as [b|k t|u ms]; intros i U K; cbn [kid] in K.
  - discriminate.
  - destruct (Nat.ltb i k); [|discriminate]. injection K as <-. apply IH.
  - revert i K. induction ms as [|[o t] ms IHm]; intros [|i] K; cbn [nth_error] in K; try discriminate.
    + injection K as <-. apply IH.
    + apply (IHm i K).
Qed.
Lemma nxt_snoc T p i U W : sub T p = Some U -> kid U i = Some W ->
  nxt T (p ++ [i]) = if is_union U then nxt T p else match kid U (S i) with Some _ => Some (p ++ [S i]) | None => nxt T p end.
Proof.
  revert T. induction p as [|j p IH]; intros T S K; cbn [sub app nxt] in *.
  - injection S as <-. rewrite K. destruct (is_union T); [reflexivity|]. destruct (kid T (Datatypes.S i)); reflexivity.
  - destruct (kid T j) as [V|] eqn:Kj; [|discriminate]. rewrite (IH V S K).
    destruct (is_union U).
    + reflexivity.
    + destruct (kid U (Datatypes.S i)); [|reflexivity]. reflexivity.
Qed.
Lemma whole_sub T p U : whole T -> sub T p = Some U -> whole U.
Proof.
  revert T. induction p as [|i p IH]; intros T W S; cbn [sub] in S; [injection S as <-; exact W|].
  destruct (kid T i) as [V|] eqn:K; [|discriminate]. apply (IH V); [apply (whole_kid T i V W K)|exact S].
Qed.
Lemma whole_first T : whole T -> is_scalar T = false -> exists U, kid T 0 = Some U.
Proof.
  destruct T as [b|k t|u ms]; [discriminate| |]; intros W _; apply kid_ex; cbn [kids]; cbn [whole] in W; destruct W as [W _].
  - lia.
  - destruct ms; [congruence|cbn [length]; lia].
Qed.

Section Parse.
Variable E : Type.
Variable compat : E -> ity -> bool.
Variable str : E -> option (list Z).
Notation tok := (itok E).
Notation ini := (ini E).
Notation ev := (ev E).
Notation init := (init E).
Notation item := (list desig * init)%type.
Notation fl := (fill compat str false).
Notation rn := (run (fill compat str false)).
Notation init2 := (init2 compat str).
Notation listi := (listi compat str).
Notation braced := (braced compat str).
Notation loop := (loop compat str).
Notation desg := (desg compat str).
Notation each := (each compat str).
Implicit Types (n m c : ini) (l : list item) (T U W : ity) (p q : path) (D V : list ev).

Definition goes {A} (g : nat -> res A) (a : A) : Prop := exists N, forall f, N <= f -> g f = ROk a.
Lemma goes_S {A} (g h : nat -> res A) a : (forall f, g (S f) = h f) -> goes h a -> goes g a.
Proof. intros H [N G]. exists (S N). intros [|f] L; [lia|]. rewrite H. apply G. lia. Qed.
Lemma goes_ret {A} (a : A) : goes (fun _ => ROk a) a.
Proof. exists 0. reflexivity. Qed.
Lemma goes_bind {A B} (g : nat -> res A) (h : nat -> A -> res B) a b :
  goes g a -> goes (fun f => h f a) b -> goes (fun f => bind (g f) (h f)) b.
Proof.
  intros [N G] [M H]. exists (N + M). intros f L. rewrite G by lia. cbn [bind]. apply H. lia.
Qed.
Lemma goes_ext {A} (g h : nat -> res A) a : (forall f, g f = h f) -> goes h a -> goes g a.
Proof. intros H [N G]. exists N. intros f L. rewrite H. apply G, L. Qed.

Definition Rest l tc (rest : list tok) : list tok := more text l tc ++ RB :: rest.

(** * Equations *)
Definition strs T (t : list tok) : option (list Z * list tok) :=
  if chars T then
    match match t with
          | LB :: r => match is_str_tok str r with Some (s, RB :: r) => Some (s, r) | _ => None end
          | _ => None
          end with
    | Some x => Some x
    | None => is_str_tok str t
    end
  else None.
Lemma init2_S f T n (t : list tok) : init2 (S f) T n t =
  match strs T t with
  | Some (s, r) => ROk (string_initializer s n, r)
  | None =>
      match T with
      | IArr _ _ =>
          match t with
          | LB :: r => braced f T n r
          | _ => listi f T n t 0
          end
      | IStr false _ =>
          match t with
          | LB :: r => braced f T n r
          | _ =>
              bind (assign t) (fun '(e, r) =>
                if compat e T then ROk (set (SE e) n, r)
                else listi f T n t 0)
          end
      | IStr true _ =>
          match t with
          | LB :: r => braced f T (with_slot (SMem 0) n) r
          | _ =>
              bind (assign t) (fun '(e, r) =>
                if compat e T then ROk (set (SE e) n, r)
                else on_child T (with_slot (SMem 0) n) 0 (fun U c => init2 f U c t))
          end
      | IScal _ =>
          match t with
          | LB :: r => bind (init2 f T n r) (fun '(n, t) => bind (skip_rb t) (fun r => ROk (n, r)))
          | _ => bind (assign t) (fun '(e, r) => ROk (set (SE e) n, r))
          end
      end
  end.
Proof. reflexivity. Qed.
Lemma listi_S f T n (t : list tok) idx : listi (S f) T n t idx =
  if Nat.ltb idx (length (arr n)) && negb (at_rb t) then
    bind (match idx with O => ROk t | _ => skip_comma t end) (fun t2 =>
      if stops t2 then ROk (n, t)
      else bind (on_child T n idx (fun U c => init2 f U c t2))
             (fun '(n, t) => listi f T n t (Datatypes.S idx)))
  else ROk (n, t).
Proof. reflexivity. Qed.
Lemma braced_S f T n (t : list tok) : braced (S f) T n t =
  bind (listi f T n t 0) (fun '(n, t') => loop f T n t' (length t)).
Proof. reflexivity. Qed.
Lemma loop_S f T n (t : list tok) start : loop (S f) T n t start =
  bind (comma_list t (negb (Nat.eqb (length t) start))) (fun '(more, r) =>
    match more with
    | None => ROk (n, r)
    | Some t =>
        match t with
        | IDX _ :: _ | RNG _ _ :: _ | DOT _ :: _ =>
            bind (desg f T n t) (fun '(n, t) => loop f T n t start)
        | _ => bind (skip_excess t) (fun t => loop f T n t start)
        end
    end).
Proof. reflexivity. Qed.
Lemma desg_idx f k t n i (r : list tok) : desg (S f) (IArr k t) n (IDX i :: r) =
  bind (array_designator k i i) (fun '(b, e) =>
    if (b <? 0)%Z then RUB
    else bind (each f (IArr k t) (with_kind KList n) r (Z.to_nat b) (Datatypes.S (Z.to_nat e - Z.to_nat b)) r)
           (fun '(n, t') => listi f (IArr k t) n t' (Datatypes.S (Z.to_nat e)))).
Proof. reflexivity. Qed.
Lemma desg_dot f T n s (r : list tok) : desg (S f) T n (DOT s :: r) =
  match member T s with
  | None => RErr
  | Some (k, named) =>
      let n := with_kind KList n in
      let t := if named then r else DOT s :: r in
      if is_union T then on_child T (with_slot (SMem k) n) k (fun U c => desg f U c t)
      else bind (on_child T n k (fun U c => desg f U c t))
             (fun '(n, t) => listi f T n t (Datatypes.S k))
  end.
Proof. reflexivity. Qed.
Lemma desg_eq f T n (r : list tok) : desg (S f) T n (EQ :: r) = init2 f T n r.
Proof. reflexivity. Qed.
Lemma each_S f T n (start : list tok) k a t : each (S f) T n start k (S a) t =
  bind (on_child T n k (fun U m => desg f U m start)) (fun '(n, t) => each f T n start (Datatypes.S k) a t).
Proof. reflexivity. Qed.

(** * Sizes *)
Fixpoint isz (i : init) : nat :=
  match i with
  | IE _ | IX _ _ => 1
  | IB l _ => S ((fix go (l : list item) : nat := match l with [] => 0 | (_, i) :: l => isz i + go l end) l)
  end.
Fixpoint lsz l : nat := match l with [] => 0 | (_, i) :: l => isz i + lsz l end.
Lemma isz_IB l tc : isz (IB l tc) = S (lsz l).
Proof. reflexivity. Qed.
Lemma isz_pos i : 1 <= isz i.
Proof. destruct i; cbn [isz]; lia. Qed.
Lemma lsz_app l l' : lsz (l ++ l') = lsz l + lsz l'.
Proof. induction l as [|[ds i] l IH]; [reflexivity|]. cbn [app lsz]. rewrite IH. lia. Qed.

(** * Tokens *)
Definition hard (t : list tok) : bool :=
  match t with TE _ :: _ | TX _ _ :: _ | LB :: _ => true | _ => false end.
Lemma text_hard i (r : list tok) : hard (text i ++ r) = true.
Proof. destruct i; reflexivity. Qed.
Lemma hard_stops (t : list tok) : hard t = true -> stops t = false /\ at_rb t = false.
Proof. destruct t as [|[] t]; try discriminate; split; reflexivity. Qed.
Lemma Rest_suffix l1 l2 tc rest : exists a, Rest (l1 ++ l2) tc rest = a ++ Rest l2 tc rest.
Proof.
  unfold Rest. induction l1 as [|[ds i] l1 [a IH]]; [exists []; reflexivity|].
  cbn [app more]. exists (COMMA :: dtoks ds ++ text i ++ a). cbn [app]. rewrite <- !app_assoc. rewrite IH. reflexivity.
Qed.
Lemma Rest_le l1 l2 tc rest : length (Rest l2 tc rest) <= length (Rest (l1 ++ l2) tc rest).
Proof. destruct (Rest_suffix l1 l2 tc rest) as [a ->]. rewrite app_length. lia. Qed.
Lemma text_len (i : init) : 1 <= length (text i).
Proof. destruct i; cbn [text length]; lia. Qed.

(** A list that has to stop here. *)
Definition ends l : Prop := match l with [] => True | (ds, _) :: _ => ds <> [] end.
Lemma run_none T l V : rn T None l = Some V -> ends l.
Proof. destruct l as [|[ds i] l]; intros H; [exact Logic.I|]. destruct ds; [discriminate H|]. cbn. discriminate. Qed.
Lemma run_ends T (c c' : option path) l : ends l -> rn T c l = rn T c' l.
Proof. destruct l as [|[[|d ds] i] l]; intros H; [reflexivity|cbn in H; congruence|reflexivity]. Qed.
Lemma listi_ends f U n l tc rest k : ends l -> k <> 0 -> listi (S f) U n (Rest l tc rest) k = ROk (n, Rest l tc rest).
Proof.
  intros H K. rewrite listi_S. destruct (Nat.ltb k (length (arr n))); [|reflexivity]. cbn [andb].
  unfold Rest. destruct l as [|[ds i] l]; cbn [more].
  - destruct tc; [|reflexivity]. destruct k; [congruence|]. reflexivity.
  - destruct ds as [|d ds]; [cbn in H; congruence|]. destruct k; [congruence|]. destruct d; reflexivity.
Qed.

(** * Nodes *)
Lemma on_child_eq {A} U n k W c (g : ity -> ini -> res (ini * A)) : kid U k = Some W -> nth_error (arr n) k = Some c ->
  on_child U n k g = bind (g W c) (fun '(c', a) => ROk (with_arr n (upd (arr n) k c'), a)).
Proof. intros K N. unfold on_child. rewrite K, N. reflexivity. Qed.
Lemma pre_app p q (v : ev) : pre p (pre q v) = pre (p ++ q) v.
Proof. destruct v; cbn [pre]; rewrite app_assoc; reflexivity. Qed.
Lemma map_pre p q D : map (pre p) (map (pre q) D) = map (pre (p ++ q)) D.
Proof. rewrite map_map. apply map_ext. intros v. apply pre_app. Qed.
Lemma map_pre0 D : map (pre []) D = D.
Proof. rewrite <- (map_id D) at 2. apply map_ext. intros []; reflexivity. Qed.
Lemma ap_kid U k W v n c : kid U k = Some W -> nth_error (arr n) k = Some c ->
  ap E U (pre [k] v) n = Ini (kindof n) (if is_union U then SMem k else slotof n) (upd (arr n) k (ap E W v c)).
Proof.
  intros K N. unfold ap. assert (P : place (pre [k] v) = k :: place v) by (destruct v; reflexivity). rewrite P.
  cbn [walk]. rewrite K, N. replace (act E (pre [k] v)) with (act E v) by (destruct v; reflexivity). reflexivity.
Qed.
Lemma aps_kid U k W D n c : kid U k = Some W -> nth_error (arr n) k = Some c -> D <> [] ->
  aps E U (map (pre [k]) D) n = Ini (kindof n) (if is_union U then SMem k else slotof n) (upd (arr n) k (aps E W D c)).
Proof.
  intros K. revert n c. induction D as [|v D IH]; intros n c N H; [congruence|]. cbn [map aps].
  rewrite (ap_kid U k W v n c K N). destruct D as [|w D].
  - reflexivity.
  - rewrite (IH _ (ap E W v c)); [|cbn [arr]; rewrite nth_upd, Nat.eqb_refl, N; reflexivity|discriminate].
    cbn [kindof slotof arr]. rewrite upd_upd. destruct (is_union U); reflexivity.
Qed.
Lemma okev_kid U k W D n c : kid U k = Some W -> nth_error (arr n) k = Some c ->
  okev E U n (map (pre [k]) D) -> okev E W c D /\ (D <> [] -> kindof n = KList).
Proof.
  intros K. revert n c. induction D as [|v D IH]; intros n c N H; [split; [exact Logic.I|congruence]|].
  cbn [map okev] in H. destruct H as [H1 H2].
  assert (P : place (pre [k] v) = k :: place v) by (destruct v; reflexivity). rewrite P in H1. cbn [okp] in H1. rewrite N in H1.
  rewrite (ap_kid U k W v n c K N) in H2.
  apply (IH _ (ap E W v c)) in H2; [|cbn [arr]; rewrite nth_upd, Nat.eqb_refl, N; reflexivity].
  cbn [okev]. tauto.
Qed.
Lemma aps_kid_struct U k W D n c : kid U k = Some W -> nth_error (arr n) k = Some c -> is_union U = false ->
  aps E U (map (pre [k]) D) n = with_arr n (upd (arr n) k (aps E W D c)).
Proof.
  intros K N Un. destruct D as [|v D].
  - cbn [map aps]. rewrite upd_self by exact N. destruct n; reflexivity.
  - rewrite (aps_kid U k W _ n c K N) by discriminate. rewrite Un. destruct n; reflexivity.
Qed.
Lemma strings_ap k n s : length (arr n) = k -> forall a ms, arr n = a ++ ms ->
  aps E (IArr k (IScal true)) (map (fun '(j, z) => Put [j] (SC z)) (combine (seq (length a) (length ms)) s)) n =
  with_arr n (a ++ puts ms s).
Proof.
  revert n. induction s as [|z s IH]; intros n L a ms Q.
  - rewrite combine_nil. cbn [map aps]. destruct ms; cbn [puts]; rewrite <- Q; destruct n; reflexivity.
  - destruct ms as [|c ms]; cbn [length seq combine map aps puts].
    + rewrite <- Q. destruct n; reflexivity.
    + assert (Lk : length a < k) by (rewrite <- L, Q, app_length; cbn [length]; lia).
      assert (Nc : nth_error (arr n) (length a) = Some c) by (rewrite Q, nth_error_app2, Nat.sub_diag by lia; reflexivity).
      assert (U1 : upd (arr n) (length a) (set (SC z) c) = (a ++ [set (SC z) c]) ++ ms).
      { rewrite Q, <- app_assoc. clear. induction a as [|b a IH]; cbn [app length upd]; [reflexivity|]. f_equal. exact IH. }
      assert (A1 : ap E (IArr k (IScal true)) (Put [length a] (SC z)) n = with_arr n ((a ++ [set (SC z) c]) ++ ms)).
      { unfold ap. cbn [place walk kid is_union]. apply Nat.ltb_lt in Lk. rewrite Lk, Nc. cbn [act]. rewrite U1. destruct n; reflexivity. }
      rewrite A1. specialize (IH (with_arr n ((a ++ [set (SC z) c]) ++ ms))).
      replace (S (length a)) with (length (a ++ [set (SC z) c])) by (rewrite app_length; cbn [length]; lia).
      rewrite (IH) with (ms := ms).
      * destruct n; cbn [with_arr]. rewrite <- app_assoc. reflexivity.
      * destruct n; cbn [arr with_arr] in *. rewrite <- L, Q. rewrite !app_length. cbn [length]. lia.
      * destruct n; reflexivity.
Qed.
Lemma puts_shape k ms s : length ms = k -> (forall j c, nth_error ms j = Some c -> shape E (IScal true) c) ->
  length (puts ms s) = k /\ (forall j c, nth_error (puts ms s) j = Some c -> shape E (IScal true) c).
Proof.
  revert k s. induction ms as [|c ms IH]; intros k s L H; [split; [exact L|exact H]|].
  destruct s as [|z s]; [split; [exact L|exact H]|]. destruct k as [|k]; [discriminate|]. injection L as L.
  destruct (IH k s L (fun j => H (S j))) as [L' H']. cbn [puts]. split; [cbn [length]; rewrite L'; reflexivity|].
  intros [|j] d N; cbn [nth_error] in N; [|apply (H' j d N)]. injection N as <-.
  apply (shape_arr E _ c); [reflexivity|]. apply (H 0 c). reflexivity.
Qed.

(** * What a part of the parser does with the items [l] for the subobject [p] *)
Definition does T p U l tc rest (V : list ev) (ne : bool) (call : nat -> ini -> res (ini * list tok)) : Prop :=
  exists D l1 l' V',
    l = l1 ++ l' /\ V = map (pre p) D ++ V' /\ rn T (nxt T p) l' = Some V' /\ (ne = true -> D <> []) /\
    forall n, shape E U n -> exists n', goes (fun f => call f n) (n', Rest l' tc rest) /\ shape E U n' /\ (okev E U n D -> n' = aps E U D n).

Definition listB T p U l : Prop :=
  forall tc rest V k, 1 <= k -> rn T (if Nat.ltb k (kids U) then Some (p ++ [k]) else nxt T p) l = Some V ->
  does T p U l tc rest V false (fun f n => listi f U n (Rest l tc rest) k).

(** One element or member, then the others. *)
Lemma then_list T p U k W l tc rest V (tw : ini -> ini) call call2 ne :
  sub T p = Some U -> is_union U = false -> kid U k = Some W ->
  (forall n, arr (tw n) = arr n) -> (forall n, kindof n = KList -> tw n = n) -> (ne = true \/ forall n, tw n = n) ->
  does T (p ++ [k]) W l tc rest V ne call ->
  (forall l1 l2, l = l1 ++ l2 -> listB T p U l2) ->
  (forall n c c' t a, nth_error (arr n) k = Some c -> goes (fun f => call f c) (c', t) ->
     goes (fun f => listi f U (with_arr (tw n) (upd (arr n) k c')) t (S k)) a -> goes (fun f => call2 f n) a) ->
  does T p U l tc rest V ne call2.
Proof.
  intros S Un K Tw1 Tw2 Tw3 (D & l1 & l' & V' & Ql & QV & R & Ne & H) B C.
  rewrite (nxt_snoc T p k U W S K), Un in R.
  assert (R' : rn T (if Nat.ltb (Datatypes.S k) (kids U) then Some (p ++ [Datatypes.S k]) else nxt T p) l' = Some V').
  { destruct (kid U (Datatypes.S k)) as [X|] eqn:KS.
    - apply kid_lt in KS. apply Nat.ltb_lt in KS. rewrite KS. exact R.
    - destruct (Nat.ltb (Datatypes.S k) (kids U)) eqn:L; [|exact R]. apply Nat.ltb_lt in L. destruct (kid_ex U _ L) as (X & KX). congruence. }
  destruct (B l1 l' Ql tc rest V' (Datatypes.S k) ltac:(lia) R') as (D2 & l2 & l'' & V'' & Ql2 & QV2 & R2 & _ & H2).
  exists (map (pre [k]) D ++ D2), (l1 ++ l2), l'', V''.
  split; [rewrite <- app_assoc, <- Ql2; exact Ql|].
  split; [rewrite map_app, map_pre, <- app_assoc, <- QV2; exact QV|].
  split; [exact R2|].
  split; [intros E1; specialize (Ne E1); destruct D; [congruence|discriminate]|].
  intros n Sh. destruct (shape_kid E U n k W Sh K) as (c & Nc & Sc).
  destruct (H c Sc) as (c' & G & Sc' & Okc).
  assert (Sh1 : shape E U (with_arr (tw n) (upd (arr n) k c'))).
  { destruct (tw n) as [k0 s0 m0]. cbn [with_arr]. apply (shape_upd E U n k W); assumption. }
  destruct (H2 _ Sh1) as (n2 & G2 & Sh2 & Ok2). exists n2. split; [|split; [exact Sh2|]].
  - apply (C n c c' _ _ Nc G G2).
  - intros O. apply okev_app in O. destruct O as [O1 O2].
    destruct (okev_kid U k W D n c K Nc O1) as [Oc Kn].
    assert (Tn : tw n = n). { destruct Tw3 as [E1|T3]; [apply Tw2, Kn, Ne, E1|apply T3]. }
    rewrite aps_app. rewrite (aps_kid_struct U k W D n c K Nc Un) in *.
    rewrite (Okc Oc), Tn in Ok2. apply Ok2, O2.
Qed.
Lemma then_union T p U k W l tc rest V (tw : ini -> ini) call call2 :
  sub T p = Some U -> is_union U = true -> kid U k = Some W ->
  (forall n, arr (tw n) = arr n) -> (forall n, kindof n = KList -> tw n = n) ->
  does T (p ++ [k]) W l tc rest V true call ->
  (forall n c c' t, nth_error (arr n) k = Some c -> goes (fun f => call f c) (c', t) ->
     goes (fun f => call2 f n) (with_arr (with_slot (SMem k) (tw n)) (upd (arr n) k c'), t)) ->
  does T p U l tc rest V true call2.
Proof.
  intros S Un K Tw1 Tw2 (D & l1 & l' & V' & Ql & QV & R & Ne & H) C.
  rewrite (nxt_snoc T p k U W S K), Un in R. specialize (Ne eq_refl).
  exists (map (pre [k]) D), l1, l', V'.
  split; [exact Ql|]. split; [rewrite map_pre; exact QV|]. split; [exact R|].
  split; [intros _; destruct D; [congruence|discriminate]|].
  intros n Sh. destruct (shape_kid E U n k W Sh K) as (c & Nc & Sc).
  destruct (H c Sc) as (c' & G & Sc' & Okc).
  eexists. split; [apply (C n c c' _ Nc G)|]. split.
  - destruct (tw n) as [k0 s0 m0]. cbn [with_arr with_slot]. apply (shape_upd E U n k W); assumption.
  - intros O. destruct (okev_kid U k W D n c K Nc O) as [Oc Kn].
    rewrite (aps_kid U k W D n c K Nc Ne), Un, (Okc Oc), (Tw2 n (Kn Ne)). destruct n; reflexivity.
Qed.

(** * Expressions *)
Inductive atom : tok -> E -> option (list Z) -> bool -> Prop :=
| atom_TE e : atom (TE e) e (str e) false
| atom_TX e s : atom (TX e s) e None true.
Lemma atom_assign tk e sl ld r : atom tk e sl ld -> assign (tk :: r) = ROk (e, r).
Proof. intros []; reflexivity. Qed.
Lemma atom_strs tk e sl ld U r v q : atom tk e sl ld -> dive compat false e sl ld U = Some (v, q) ->
  strs U (tk :: r) = match sl with Some s => if chars U then Some (s, r) else None | None => None end.
Proof.
  intros A H. unfold strs. destruct (chars U) eqn:C.
  - destruct U as [|k t|]; try discriminate. cbn [dive] in H. rewrite C in H.
    destruct A; cbn [is_str_tok].
    + destruct (str e) as [s|]; reflexivity.
    + discriminate H.
  - destruct sl; reflexivity.
Qed.
Lemma atom_hard tk e sl ld r : atom tk e sl ld -> hard (tk :: r) = true /\ (forall X (a : list tok -> X) b, match tk :: r with LB :: r => a r | _ => b end = b).
Proof. intros []; split; reflexivity. Qed.

(** ... that fill an object *)
Lemma atom_fits tk e sl ld U r v : atom tk e sl ld -> dive compat false e sl ld U = Some (v, []) ->
  v <> [] /\
  forall n, shape E U n -> exists n', goes (fun f => init2 f U n (tk :: r)) (n', r) /\ shape E U n' /\ (okev E U n v -> n' = aps E U v n).
Proof.
  intros A H. pose proof (atom_strs _ _ _ _ _ r _ _ A H) as St.
  destruct U as [b|k t|u ms]; cbn [dive] in H.
  - injection H as <-. split; [discriminate|]. intros n Sh. exists (set (SE e) n). split; [|split; [|reflexivity]].
    + apply goes_S with (h := fun _ => ROk (set (SE e) n, r)); [|apply goes_ret]. intros f. rewrite init2_S, St. cbn [chars].
      destruct A; cbn [assign bind]; [destruct (str e); reflexivity|reflexivity].
    + apply (shape_arr E _ n); [reflexivity|exact Sh].
  - destruct (chars (IArr k t)) eqn:C.
    + destruct sl as [s|].
      * injection H as <-. split; [discriminate|]. intros n Sh. exists (string_initializer s n). split; [|split].
        -- apply goes_S with (h := fun _ => ROk (string_initializer s n, r)); [|apply goes_ret]. intros f. rewrite init2_S, St. reflexivity.
        -- destruct t as [b0| |]; try discriminate. cbn [chars] in C. subst b0. pose proof (shape_len E _ _ Sh) as L. cbn [kids] in L.
           destruct (puts_shape k (arr n) s L) as [L1 L2].
           { intros j c N. assert (Lj : j < k) by (rewrite <- L; apply nth_error_Some; congruence).
             destruct (shape_kid E (IArr k (IScal true)) n j (IScal true) Sh) as (c' & N' & Sc); [cbn [kid]; apply Nat.ltb_lt in Lj; rewrite Lj; reflexivity|].
             rewrite N in N'. injection N' as <-. exact Sc. }
           apply shape_intro; [destruct n; exact L1|]. intros j X KX. cbn [kid] in KX. destruct (Nat.ltb j k) eqn:Lj; [|discriminate]. injection KX as <-.
           apply Nat.ltb_lt in Lj. destruct (nth_error (puts (arr n) s) j) as [c|] eqn:Nj.
           ++ exists c. split; [destruct n; exact Nj|apply (L2 j c Nj)].
           ++ apply nth_error_None in Nj. lia.
        -- intros _. destruct t as [b0| |]; try discriminate. cbn [chars] in C. subst b0. pose proof (shape_len E _ _ Sh) as L. cbn [kids] in L.
           cbn [aps]. unfold ap. cbn [place walk act]. unfold clr. cbn [is_union]. pose proof (strings_ap k n s L [] (arr n) eq_refl) as Q. cbn [length app] in Q.
           rewrite L in Q. rewrite Q. reflexivity.
      * destruct (ld && negb false); [discriminate|]. destruct (dive compat false e None ld t) as [[v0 q0]|]; discriminate.
    + destruct (dive compat false e sl ld t) as [[v0 q0]|]; discriminate.
  - destruct (compat e (IStr u ms)) eqn:Cm.
    + injection H as <-. split; [discriminate|]. intros n Sh. exists (set (SE e) n). split; [|split; [|reflexivity]].
      * apply goes_S with (h := fun _ => ROk (set (SE e) n, r)); [|apply goes_ret]. intros f. rewrite init2_S, St. cbn [chars].
        destruct A; cbn [assign bind]; rewrite ?Cm; destruct u; try reflexivity; destruct (str e); reflexivity.
      * apply (shape_arr E _ n); [reflexivity|exact Sh].
    + destruct ms as [|[o t] ms]; [discriminate|]. destruct (dive compat false e sl ld t) as [[v0 q0]|]; discriminate.
Qed.

(** ... or a part of it *)
Lemma dive_first e sl ld U v q : whole U -> dive compat false e sl ld U = Some (v, q) -> q <> [] ->
  exists W v0 q0, kid U 0 = Some W /\ dive compat false e sl ld W = Some (v0, q0) /\ v = map (pre [0]) v0 /\ q = 0 :: q0 /\
    (forall s, sl = Some s -> chars U = false) /\ compat e U && negb (is_arr U) = false /\ is_scalar U = false.
Proof.
  intros Wh H Q. destruct U as [b|k t|u ms]; cbn [dive] in H.
  - injection H as <- <-. congruence.
  - assert (K : kid (IArr k t) 0 = Some t). { cbn [kid]. cbn [whole] in Wh. destruct k; [destruct Wh; congruence|reflexivity]. }
    destruct (chars (IArr k t)) eqn:C.
    + destruct sl as [s|]; [injection H as <- <-; congruence|]. destruct (ld && negb false); [discriminate|].
      destruct (dive compat false e None ld t) as [[v0 q0]|] eqn:Dv; [|discriminate]. injection H as <- <-.
      exists t, v0, q0. repeat split; auto; [discriminate|]. cbn [is_arr negb]. apply andb_false_r.
    + destruct (dive compat false e sl ld t) as [[v0 q0]|] eqn:Dv; [|discriminate]. injection H as <- <-.
      exists t, v0, q0. repeat split; auto. cbn [is_arr negb]. apply andb_false_r.
  - destruct (compat e (IStr u ms)) eqn:Cm; [injection H as <- <-; congruence|].
    destruct ms as [|[o t] ms]; [discriminate|]. destruct (dive compat false e sl ld t) as [[v0 q0]|] eqn:Dv; [|discriminate]. injection H as <- <-.
    exists t, v0, q0. repeat split; auto.
Qed.
Lemma atom_does tk e sl ld l : atom tk e sl ld -> forall U T p tc rest v q V,
  (forall T' p' U' l1 l2, whole T' -> sub T' p' = Some U' -> is_union U' = false -> l = l1 ++ l2 -> listB T' p' U' l2) ->
  whole T -> sub T p = Some U -> dive compat false e sl ld U = Some (v, q) -> rn T (nxt T (p ++ q)) l = Some V ->
  does T p U l tc rest (map (pre p) v ++ V) true (fun f n => init2 f U n (tk :: Rest l tc rest)).
Proof.
  intros A U. induction U as [U IH] using ity_kids_ind. intros T p tc rest v q V B Wh S H R.
  destruct q as [|q1 q'].
  - destruct (atom_fits _ _ _ _ U (Rest l tc rest) v A H) as [Nv G]. rewrite app_nil_r in R.
    exists v, [], l, V. repeat split; auto.
  - destruct (dive_first e sl ld U v (q1 :: q')) as (W & v0 & q0 & K & Hd & -> & Qq & Cs & Cm & Ns); auto; [apply (whole_sub T p U Wh S)|discriminate|].
    rewrite Qq in *. clear q1 q' Qq.
    assert (St : strs U (tk :: Rest l tc rest) = None).
    { rewrite (atom_strs _ _ _ _ _ _ _ _ A H). destruct sl as [s|]; [rewrite (Cs s eq_refl); reflexivity|reflexivity]. }
    assert (I0 : does T (p ++ [0]) W l tc rest (map (pre (p ++ [0])) v0 ++ V) true (fun f n => init2 f W n (tk :: Rest l tc rest))).
    { apply (IH 0 W K T (p ++ [0]) tc rest v0 q0 V B Wh); [apply (sub_snoc T p 0 U W S K)|exact Hd|]. rewrite <- app_assoc. exact R. }
    rewrite map_pre. destruct (atom_hard _ _ _ _ (Rest l tc rest) A) as [Hd1 Hd2]. destruct (hard_stops _ Hd1) as [Hs Hr].
    destruct (is_union U) eqn:Un.
    + apply (then_union T p U 0 W l tc rest _ (fun n => n)) with (3 := K) (6 := I0); auto.
      intros n c c' t Nc G. apply goes_S with (h := fun f => on_child U (with_slot (SMem 0) n) 0 (fun U c => init2 f U c (tk :: Rest l tc rest))).
      * intros f. rewrite init2_S, St. destruct U as [| |[] ms]; try discriminate. rewrite Hd2, (atom_assign _ _ _ _ _ A). cbn [bind].
        cbn [is_arr negb] in Cm. rewrite andb_true_r in Cm. rewrite Cm. reflexivity.
      * apply goes_ext with (h := fun f => bind (init2 f W c (tk :: Rest l tc rest)) (fun '(c', a) => ROk (with_arr (with_slot (SMem 0) n) (upd (arr n) 0 c'), a))).
        { intros f. rewrite (on_child_eq U (with_slot (SMem 0) n) 0 W c) by (try exact K; destruct n; exact Nc). destruct n; reflexivity. }
        apply (goes_bind _ (fun f '(c', a) => ROk (with_arr (with_slot (SMem 0) n) (upd (arr n) 0 c'), a)) _ _ G). apply goes_ret.
    + apply (then_list T p U 0 W l tc rest _ (fun n => n)) with (3 := K) (7 := I0); auto.
      { intros l1 l2 Q. apply (B T p U l1 l2 Wh S Un Q). }
      intros n c c' t a Nc G G2.
      apply goes_S with (h := fun f => listi f U n (tk :: Rest l tc rest) 0).
      * intros f. rewrite init2_S, St. destruct U as [| |[] ms]; try discriminate.
        -- rewrite Hd2. reflexivity.
        -- rewrite Hd2, (atom_assign _ _ _ _ _ A). cbn [bind]. cbn [is_arr negb] in Cm. rewrite andb_true_r in Cm. rewrite Cm. reflexivity.
      * apply goes_S with (h := fun f => bind (on_child U n 0 (fun U c => init2 f U c (tk :: Rest l tc rest))) (fun '(n, t) => listi f U n t 1)).
        -- intros f. rewrite listi_S, Hr. assert (Ln : Nat.ltb 0 (length (arr n)) = true) by (apply Nat.ltb_lt, nth_error_Some; congruence).
           rewrite Ln. cbn [andb negb bind]. rewrite Hs. reflexivity.
        -- apply (goes_bind _ (fun f '(n, t) => listi f U n t 1) (with_arr n (upd (arr n) 0 c'), t)); [|exact G2].
           apply goes_ext with (h := fun f => bind (init2 f W c (tk :: Rest l tc rest)) (fun '(c', a) => ROk (with_arr n (upd (arr n) 0 c'), a))).
           { intros f. rewrite (on_child_eq U n 0 W c _ K Nc). reflexivity. }
           apply (goes_bind _ (fun f '(c', a) => ROk (with_arr n (upd (arr n) 0 c'), a)) _ _ G). apply goes_ret.
Qed.

(** * Events have places *)
Lemma valid_pre T p U (v : ev) : sub T p = Some U -> valid E U v -> valid E T (pre p v).
Proof.
  intros S (W & SW & A). exists W. destruct v as [q|q s]; cbn [pre place] in *; rewrite (sub_app _ _ _ _ S); auto.
Qed.
Lemma valid_map T p U D : sub T p = Some U -> Forall (valid E U) D -> Forall (valid E T) (map (pre p) D).
Proof. intros S F. induction F; constructor; auto. apply (valid_pre T p U); assumption. Qed.
Lemma dive_valid e sl ld U : forall v q, whole U -> dive compat false e sl ld U = Some (v, q) ->
  Forall (valid E U) v /\ sub U q <> None.
Proof.
  induction U as [U IH] using ity_kids_ind. intros v q Wh H.
  destruct q as [|q1 q'].
  - split; [|discriminate]. destruct U as [b|k t|u ms]; cbn [dive] in H.
    + injection H as <-. constructor; [|constructor]. exists (IScal b). split; reflexivity.
    + destruct (chars (IArr k t)) eqn:C.
      * destruct sl as [s|].
        -- injection H as <-. constructor; [exists (IArr k t); split; [reflexivity|exact Logic.I]|].
           apply Forall_forall. intros v Hv. apply in_map_iff in Hv. destruct Hv as ([j z] & <- & Hi).
           apply in_combine_l, in_seq in Hi. exists t. cbn [place sub kid]. 
           assert (L : Nat.ltb j k = true) by (apply Nat.ltb_lt; lia). rewrite L. split; [reflexivity|].
           destruct t; try discriminate. reflexivity.
        -- destruct (ld && negb false); [discriminate|]. destruct (dive compat false e None ld t) as [[v0 q0]|]; discriminate.
      * destruct (dive compat false e sl ld t) as [[v0 q0]|]; discriminate.
    + destruct (compat e (IStr u ms)).
      * injection H as <-. constructor; [|constructor]. exists (IStr u ms). split; reflexivity.
      * destruct ms as [|[o t] ms]; [discriminate|]. destruct (dive compat false e sl ld t) as [[v0 q0]|]; discriminate.
  - destruct (dive_first e sl ld U v (q1 :: q')) as (W & v0 & q0 & K & Hd & -> & Qq & _); auto; [discriminate|].
    rewrite Qq. destruct (IH 0 W K v0 q0 (whole_kid U 0 W Wh K) Hd) as [F S].
    split; [apply (valid_map U [0] W); [cbn [sub]; rewrite K; reflexivity|exact F]|]. cbn [sub]. rewrite K. exact S.
Qed.
Lemma run_valid s T : whole T -> (forall i U v q, isz i <= s -> whole U -> fl i U = Some (v, q) -> Forall (valid E U) v /\ sub U q <> None) ->
  forall l (c : option path) V, lsz l <= s -> rn T c l = Some V -> Forall (valid E T) V.
Proof.
  intros Wh F l. induction l as [|[ds i] l IH]; intros c V L R.
  - injection R as <-. constructor.
  - cbn [run lsz] in *. destruct (match ds with [] => c | _ => resolve T ds end) as [p|]; [|discriminate].
    destruct (sub T p) as [U|] eqn:S; [|discriminate]. destruct (fl i U) as [[v q]|] eqn:Fi; [|discriminate].
    destruct (rn T (nxt T (p ++ q)) l) as [w|] eqn:R2; [|discriminate]. injection R as <-.
    destruct (F i U v q ltac:(lia) (whole_sub _ _ _ Wh S) Fi) as [Fv _]. apply Forall_app. split.
    + apply (valid_map T p U); assumption.
    + apply (IH _ _ ltac:(lia) R2).
Qed.
Lemma fill_IB U l tc v q : fl (IB l tc) U = Some (v, q) ->
  (is_scalar U = true /\ exists i, l = [([], i)] /\ tc = false /\ fl i U = Some (v, q)) \/
  (chars U = true /\ exists e s, l = [([], IE e)] /\ str e = Some s /\ tc = false /\ fl (IE e) U = Some (v, q)) \/
  (is_scalar U = false /\ (chars U = true -> forall e, l = [([], IE e)] -> str e = None) /\ q = [] /\ exists V, v = Clear [] :: V /\ rn U (Some [0]) l = Some V).
Proof.
  intros H. cbn [fill] in H. destruct (is_scalar U) eqn:Sc.
  - left. split; [reflexivity|]. destruct l as [|[[|d ds] i] [|x l]]; try discriminate.
    exists i. destruct tc; [discriminate|]. auto.
  - right.
    assert (G : (exists e s, l = [([], IE e)] /\ chars U = true /\ str e = Some s) \/
      ((chars U = true -> forall e, l = [([], IE e)] -> str e = None) /\
       match l with [([], IE e)] => if chars U then str e else None | _ => None end = None)).
    { destruct l as [|[[|d ds] [e|e s|l0 tc0]] [|x l]];
        try (right; split; [intros _ e' Q; discriminate|reflexivity]).
      destruct (chars U); [|right; split; [discriminate|reflexivity]].
      destruct (str e) as [s|] eqn:Se; [left; eauto|right]. split; [|reflexivity]. intros _ e' Q. congruence. }
    destruct G as [(e & s & -> & C & Se)|[G1 G2]].
    + left. split; [exact C|]. rewrite C, Se in H. destruct tc; [discriminate|]. exists e, s. auto.
    + right. rewrite G2 in H. destruct (rn U (Some [0]) l) as [w|] eqn:R; [|discriminate]. injection H as <- <-.
      repeat split; auto. eauto.
Qed.
Lemma fill_valid : forall s i U v q, isz i <= s -> whole U -> fl i U = Some (v, q) -> Forall (valid E U) v /\ sub U q <> None.
Proof.
  induction s as [|s IH]; intros i U v q L Wh H; [pose proof (isz_pos i); lia|].
  destruct i as [e|e z|l tc].
  - apply (dive_valid e (str e) false U v q Wh H).
  - apply (dive_valid e None true U v q Wh H).
  - rewrite isz_IB in L. destruct (fill_IB _ _ _ _ _ H) as [(Sc & i & -> & -> & Hi)|[(C & e & z & -> & Se & -> & Hi)|(Ns & _ & -> & V & -> & R)]].
    + cbn [lsz] in L. apply (IH i U v q ltac:(lia) Wh Hi).
    + apply (IH (IE e) U v q ltac:(cbn [lsz isz] in *; lia) Wh Hi).
    + split; [|discriminate]. constructor; [exists U; split; [reflexivity|exact Logic.I]|].
      apply (run_valid s U Wh IH l (Some [0]) V ltac:(lia) R).
Qed.

(** * Braces *)
Definition items l tc : list tok :=
  match l with [] => [] | (ds, i) :: l => dtoks ds ++ text i ++ more text l tc end.
Lemma text_IB l tc (r : list tok) : text (IB l tc) ++ r = LB :: items l tc ++ RB :: r.
Proof. cbn [text app]. unfold items. rewrite <- app_assoc. reflexivity. Qed.
Definition claimA (s : nat) : Prop := forall i l U T p tc rest v q V, isz i + lsz l <= s -> whole T -> sub T p = Some U ->
  fl i U = Some (v, q) -> rn T (nxt T (p ++ q)) l = Some V ->
  does T p U l tc rest (map (pre p) v ++ V) true (fun f n => init2 f U n (text i ++ Rest l tc rest)).
Definition claimB (s : nat) : Prop := forall l T p U, lsz l <= s -> whole T -> sub T p = Some U -> is_union U = false -> listB T p U l.
Definition claimD (s : nat) : Prop := forall i l r ds U T p tc rest W v q V, isz i + lsz l <= s -> whole T -> sub T p = Some U ->
  resolve U ds = Some r -> sub U r = Some W -> fl i W = Some (v, q) -> rn T (nxt T (p ++ r ++ q)) l = Some V ->
  does T p U l tc rest (map (pre (p ++ r)) v ++ V) true (fun f n => desg f U n (map dtok ds ++ EQ :: text i ++ Rest l tc rest)).

Lemma loop_does s U : claimD s -> whole U ->
  forall l tc rest V, lsz l <= s -> rn U None l = Some V -> forall n start, shape E U n -> length (Rest l tc rest) < start ->
  exists n', goes (fun f => loop f U n (Rest l tc rest) start) (n', rest) /\ shape E U n' /\ (okev E U n V -> n' = aps E U V n).
Proof.
  intros Dg Wh l. induction l as [l IH] using (induction_ltof1 _ lsz). unfold ltof in IH.
  intros tc rest V L R n start Sh Ls.
  assert (Eb : Nat.eqb (length (Rest l tc rest)) start = false) by (apply Nat.eqb_neq; lia).
  destruct l as [|[ds i] l].
  - injection R as <-. exists n. split; [|split; [exact Sh|reflexivity]].
    apply goes_S with (h := fun _ => ROk (n, rest)); [|apply goes_ret]. intros f. rewrite loop_S, Eb. destruct tc; reflexivity.
  - pose proof (run_none _ _ _ R) as En. cbn in En. destruct ds as [|d ds]; [congruence|].
    cbn [run] in R. destruct (resolve U (d :: ds)) as [r|] eqn:Rs; [|discriminate].
    destruct (sub U r) as [W|] eqn:SW; [|discriminate]. destruct (fl i W) as [[v q]|] eqn:Fi; [|discriminate].
    destruct (rn U (nxt U (r ++ q)) l) as [w|] eqn:R2; [|discriminate]. injection R as <-.
    cbn [lsz] in L, IH. pose proof (isz_pos i) as Ip.
    destruct (Dg i l r (d :: ds) U U [] tc rest W v q w ltac:(lia) Wh eq_refl Rs SW Fi R2) as (D & l1 & l' & V' & Ql & QV & R3 & Ne & H).
    rewrite map_pre0 in QV. cbn [app] in QV. subst l. rewrite lsz_app in *.
    destruct (H n Sh) as (n1 & G1 & Sh1 & Ok1).
    pose proof (Rest_le l1 l' tc rest) as Le.
    destruct (IH l' ltac:(lia) tc rest V' ltac:(lia) R3 n1 start Sh1) as (n2 & G2 & Sh2 & Ok2).
    { unfold Rest in Ls, Le |- *. cbn [more app length] in Ls. rewrite !app_length in Ls. rewrite !app_length in *. cbn [length] in *. lia. }
    exists n2. split; [|split; [exact Sh2|]].
    + apply goes_S with (h := fun f => bind (desg f U n (map dtok (d :: ds) ++ EQ :: text i ++ Rest (l1 ++ l') tc rest)) (fun '(n, t) => loop f U n t start)).
      * intros f. rewrite loop_S, Eb. unfold Rest. cbn [more dtoks map app]. rewrite <- !app_assoc. cbn [app]. rewrite <- ?app_assoc. destruct d; reflexivity.
      * apply (goes_bind _ (fun f '(n, t) => loop f U n t start) _ _ G1 G2).
    + rewrite QV. intros O. apply okev_app in O. destruct O as [O1 O2]. rewrite aps_app. rewrite (Ok1 O1) in Ok2. apply Ok2, O2.
Qed.
Lemma braced_does s U : claimA s -> claimB s -> claimD s -> whole U -> is_scalar U = false ->
  forall l tc rest V, lsz l <= s -> rn U (Some [0]) l = Some V -> forall n, shape E U n -> (is_union U = true -> slotof n = SMem 0) ->
  exists n', goes (fun f => braced f U n (items l tc ++ RB :: rest)) (n', rest) /\ shape E U n' /\ (okev E U n V -> n' = aps E U V n).
Proof.
  intros Cl B Dg Wh Ns l tc rest V L R n Sh Sl.
  destruct (whole_first U Wh Ns) as (W & K).
  assert (Ln : Nat.ltb 0 (length (arr n)) = true) by (rewrite (shape_len E U n Sh); apply Nat.ltb_lt, (kid_lt U 0 W K)).
  destruct l as [|[ds i] l].
  - injection R as <-. exists n. split; [|split; [exact Sh|reflexivity]].
    cbn [items app]. apply goes_S with (h := fun f => bind (listi f U n (RB :: rest) 0) (fun '(n, t') => loop f U n t' (length (RB :: rest)))); [intros f; reflexivity|].
    apply goes_S with (h := fun f => loop (S f) U n (RB :: rest) (length (RB :: rest))).
    { intros f. rewrite listi_S. cbn [at_rb negb]. rewrite andb_false_r. reflexivity. }
    exists 0. intros f _. reflexivity.
  - cbn [lsz] in L. pose proof (isz_pos i) as Ip. destruct ds as [|d ds].
    + (* first an initializer without designator *)
      cbn [items dtoks app]. cbn [run] in R. cbn [sub] in R. rewrite K in R.
      destruct (fl i W) as [[v q]|] eqn:Fi; [|discriminate].
      destruct (rn U (nxt U ([0] ++ q)) l) as [w|] eqn:R2; [|discriminate]. injection R as <-.
      rewrite <- app_assoc. change (more text l tc ++ RB :: rest) with (Rest l tc rest).
      destruct (hard_stops _ (text_hard i (Rest l tc rest))) as [Hs Hr].
      pose proof (Cl i l W U [0] tc rest v q w ltac:(lia) Wh ltac:(cbn [sub]; rewrite K; reflexivity) Fi R2) as I0.
      assert (Lp : forall l1 l', l = l1 ++ l' -> length (Rest l' tc rest) < length (text i ++ Rest l tc rest)).
      { intros l1 l' ->. pose proof (Rest_le l1 l' tc rest). pose proof (text_len i). rewrite app_length. lia. }
      assert (Step : forall a, goes (fun f => bind (bind (on_child U n 0 (fun U c => init2 f U c (text i ++ Rest l tc rest))) (fun '(n, t) => listi f U n t 1)) (fun '(n, t') => loop (S f) U n t' (length (text i ++ Rest l tc rest)))) a ->
        goes (fun f => braced f U n (text i ++ Rest l tc rest)) a).
      { intros a G. apply goes_S with (h := fun f => bind (listi f U n (text i ++ Rest l tc rest) 0) (fun '(n, t') => loop f U n t' (length (text i ++ Rest l tc rest)))); [intros f; reflexivity|].
        refine (goes_S _ _ _ _ G). intros f. rewrite listi_S, Ln, Hr. cbn [andb negb bind]. rewrite Hs. reflexivity. }
      destruct (is_union U) eqn:Un.
      * destruct I0 as (D & l1 & l' & V' & Ql & QV & R3 & Ne & H).
        destruct (shape_kid E U n 0 W Sh K) as (c & Nc & Sc). destruct (H c Sc) as (c' & G1 & Sc' & Ok1).
        change [0] with ([] ++ [0]) in R3. rewrite (nxt_snoc U [] 0 U W eq_refl K), Un in R3. cbn [nxt] in R3.
        assert (Sh1 : shape E U (with_arr n (upd (arr n) 0 c'))) by (destruct n as [k0 s0 m0]; apply (shape_upd E U (Ini k0 s0 m0) 0 W); assumption).
        subst l. rewrite lsz_app in L.
        destruct (loop_does s U Dg Wh l' tc rest V' ltac:(lia) R3 _ (length (text i ++ Rest (l1 ++ l') tc rest)) Sh1 (Lp l1 l' eq_refl)) as (n2 & G2 & Sh2 & Ok2).
        exists n2. split; [|split; [exact Sh2|]].
        -- apply Step. apply (goes_bind _ (fun f '(n, t') => loop (S f) U n t' _) (with_arr n (upd (arr n) 0 c'), Rest l' tc rest)).
           ++ apply (goes_bind _ (fun f '(n, t) => listi f U n t 1) (with_arr n (upd (arr n) 0 c'), Rest l' tc rest)).
              ** apply goes_ext with (h := fun f => bind (init2 f W c (text i ++ Rest (l1 ++ l') tc rest)) (fun '(c', a) => ROk (with_arr n (upd (arr n) 0 c'), a))).
                 { intros f. rewrite (on_child_eq U n 0 W c _ K Nc). reflexivity. }
                 apply (goes_bind _ (fun f '(c', a) => ROk (with_arr n (upd (arr n) 0 c'), a)) _ _ G1). apply goes_ret.
              ** exists 1. intros [|f] Lf; [lia|]. apply listi_ends; [apply (run_none _ _ _ R3)|discriminate].
           ++ destruct G2 as [N G2]. exists N. intros f Lf. apply G2. lia.
        -- rewrite QV. intros O. apply okev_app in O. destruct O as [O1 O2]. rewrite aps_app.
           destruct (okev_kid U 0 W D n c K Nc O1) as [Oc _].
           assert (Q1 : aps E U (map (pre [0]) D) n = with_arr n (upd (arr n) 0 c')).
           { rewrite (aps_kid U 0 W D n c K Nc (Ne eq_refl)), Un, (Ok1 Oc). specialize (Sl eq_refl). destruct n as [k0 s0 m0]. cbn [slotof] in Sl. subst s0. reflexivity. }
           rewrite Q1 in *. apply Ok2, O2.
      * assert (I1 : does U [] U l tc rest (map (pre [0]) v ++ w) true (fun f n => bind (on_child U n 0 (fun U c => init2 f U c (text i ++ Rest l tc rest))) (fun '(n, t) => listi f U n t 1))).
        { apply (then_list U [] U 0 W l tc rest _ (fun n => n)) with (3 := K) (7 := I0); auto.
          - intros l1 l2 Q. subst l. rewrite lsz_app in L. apply (B l2 U [] U ltac:(lia) Wh eq_refl Un).
          - intros m c c' t a Nc G G2. apply (goes_bind _ (fun f '(n, t) => listi f U n t 1) (with_arr m (upd (arr m) 0 c'), t)); [|exact G2].
            apply goes_ext with (h := fun f => bind (init2 f W c (text i ++ Rest l tc rest)) (fun '(c', a) => ROk (with_arr m (upd (arr m) 0 c'), a))).
            { intros f. rewrite (on_child_eq U m 0 W c _ K Nc). reflexivity. }
            apply (goes_bind _ (fun f '(c', a) => ROk (with_arr m (upd (arr m) 0 c'), a)) _ _ G). apply goes_ret. }
        destruct I1 as (D & l1 & l' & V' & Ql & QV & R3 & _ & H). cbn [nxt] in R3. rewrite map_pre0 in QV.
        destruct (H n Sh) as (n1 & G1 & Sh1 & Ok1). subst l. rewrite lsz_app in L.
        destruct (loop_does s U Dg Wh l' tc rest V' ltac:(lia) R3 n1 (length (text i ++ Rest (l1 ++ l') tc rest)) Sh1 (Lp l1 l' eq_refl)) as (n2 & G2 & Sh2 & Ok2).
        exists n2. split; [|split; [exact Sh2|]].
        -- apply Step. apply (goes_bind _ (fun f '(n, t') => loop (S f) U n t' _) _ _ G1).
           destruct G2 as [N G2]. exists N. intros f Lf. apply G2. lia.
        -- rewrite QV. intros O. apply okev_app in O. destruct O as [O1 O2]. rewrite aps_app. rewrite (Ok1 O1) in Ok2. apply Ok2, O2.
    + (* first a designator *)
      cbn [run] in R. destruct (resolve U (d :: ds)) as [r|] eqn:Rs; [|discriminate].
      destruct (sub U r) as [X|] eqn:SX; [|discriminate]. destruct (fl i X) as [[v q]|] eqn:Fi; [|discriminate].
      destruct (rn U (nxt U (r ++ q)) l) as [w|] eqn:R2; [|discriminate]. injection R as <-.
      destruct (Dg i l r (d :: ds) U U [] tc rest X v q w ltac:(lia) Wh eq_refl Rs SX Fi R2) as (D & l1 & l' & V' & Ql & QV & R3 & Ne & H).
      rewrite map_pre0 in QV. cbn [app] in QV. subst l. rewrite lsz_app in *.
      destruct (H n Sh) as (n1 & G1 & Sh1 & Ok1).
      set (ts := map dtok (d :: ds) ++ EQ :: text i ++ Rest (l1 ++ l') tc rest) in *.
      destruct (loop_does s U Dg Wh l' tc rest V' ltac:(lia) R3 n1 (length ts) Sh1) as (n2 & G2 & Sh2 & Ok2).
      { pose proof (Rest_le l1 l' tc rest) as Le. unfold ts. rewrite app_length. cbn [length map]. rewrite app_length. lia. }
      exists n2. split; [|split; [exact Sh2|]].
      * assert (Qt : items ((d :: ds, i) :: l1 ++ l') tc ++ RB :: rest = ts).
        { unfold ts, Rest. cbn [items dtoks]. rewrite <- !app_assoc. reflexivity. }
        rewrite Qt. apply goes_S with (h := fun f => bind (listi f U n ts 0) (fun '(n, t') => loop f U n t' (length ts))); [intros f; reflexivity|].
        apply goes_S with (h := fun f => loop (S f) U n ts (length ts)).
        { intros f. rewrite listi_S. unfold ts. destruct d; cbn [map app dtok at_rb negb]; rewrite Ln; reflexivity. }
        apply goes_ext with (h := fun f => bind (desg f U n ts) (fun '(n, t) => loop f U n t (length ts))).
        { intros f. rewrite loop_S, Nat.eqb_refl. unfold ts. destruct d; reflexivity. }
        apply (goes_bind _ (fun f '(n, t) => loop f U n t (length ts)) _ _ G1 G2).
      * rewrite QV. intros O. apply okev_app in O. destruct O as [O1 O2]. rewrite aps_app. rewrite (Ok1 O1) in Ok2. apply Ok2, O2.
Qed.

(** * Initializers *)
Definition claimF (s : nat) : Prop := forall i U v, isz i <= s -> whole U -> fl i U = Some (v, []) -> forall r,
  v <> [] /\ forall n, shape E U n -> exists n', goes (fun f => init2 f U n (text i ++ r)) (n', r) /\ shape E U n' /\ (okev E U n v -> n' = aps E U v n).
Lemma strs_items U l tc r : (chars U = true -> forall e, l = [([], IE e)] -> tc = false -> str e = None) ->
  strs U (LB :: items l tc ++ RB :: r) = None.
Proof.
  intros H. unfold strs. destruct (chars U) eqn:C; [|reflexivity].
  destruct l as [|[[|d ds] i] l]; [reflexivity| |destruct d; reflexivity].
  destruct i as [e|e z|l0 tc0]; [|reflexivity|reflexivity].
  cbn [items dtoks text app is_str_tok]. destruct (str e) as [s|] eqn:Se; [|reflexivity].
  destruct l as [|[ds i] l]; cbn [more app].
  - destruct tc; cbn [app]; [reflexivity|]. rewrite (H eq_refl e eq_refl eq_refl) in Se. discriminate.
  - reflexivity.
Qed.
Lemma caseF s : claimA s -> claimB s -> claimD s -> claimF s -> claimF (S s).
Proof.
  intros Cl B Dg F i U v L Wh H r. destruct i as [e|e z|l tc].
  - apply (atom_fits (TE e) e (str e) false U r v (atom_TE e) H).
  - apply (atom_fits (TX e z) e None true U r v (atom_TX e z) H).
  - rewrite isz_IB in L. rewrite text_IB.
    destruct (fill_IB _ _ _ _ _ H) as [(Sc & i & -> & -> & Hi)|[(C & e & z & -> & Se & -> & Hi)|(Ns & Nst & _ & V & -> & R)]].
    + cbn [lsz] in L. destruct (F i U v ltac:(lia) Wh Hi (RB :: r)) as [Nv G]. split; [exact Nv|].
      intros n Sh. destruct (G n Sh) as (n' & G1 & Sh' & Ok). exists n'. split; [|split; [exact Sh'|exact Ok]].
      destruct U as [b| |]; try discriminate. cbn [items dtoks app more]. rewrite app_nil_r.
      apply goes_S with (h := fun f => bind (init2 f (IScal b) n (text i ++ RB :: r)) (fun '(n, t) => bind (skip_rb t) (fun r => ROk (n, r)))).
      { intros f. reflexivity. }
      apply (goes_bind _ (fun f '(n, t) => bind (skip_rb t) (fun r => ROk (n, r))) _ _ G1). apply goes_ret.
    + destruct (atom_fits (TE e) e (str e) false U r v (atom_TE e) Hi) as [Nv G]. split; [exact Nv|].
      intros n Sh. destruct (G n Sh) as (n' & [N G1] & Sh' & Ok). exists n'. split; [|split; [exact Sh'|exact Ok]].
      exists (S N). intros [|f] Lf; [lia|]. specialize (G1 (S f) ltac:(lia)). rewrite init2_S in G1. unfold strs in G1.
      rewrite C in G1. cbn [is_str_tok] in G1. rewrite Se in G1. rewrite init2_S. unfold strs. rewrite C.
      cbn [items dtoks text app more is_str_tok]. rewrite Se. exact G1.
    + split; [discriminate|]. intros n Sh.
      destruct (braced_does s U Cl B Dg Wh Ns l tc r V ltac:(lia) R (clr E U n)) as (n' & G & Sh' & Ok).
      { unfold clr. destruct (is_union U); [|exact Sh]. apply (shape_arr E U n); [destruct n; reflexivity|exact Sh]. }
      { intros Un. unfold clr. rewrite Un. destruct n; reflexivity. }
      exists n'. split; [|split; [exact Sh'|]].
      * refine (goes_S _ _ _ _ G). intros f. rewrite init2_S, strs_items.
        -- destruct U as [b|k t|[] ms]; [discriminate|reflexivity..].
        -- intros C e Q _. apply (Nst C e Q).
      * intros O. cbn [okev aps] in O |- *. destruct O as [_ O]. unfold ap in *. cbn [place walk act] in *. apply Ok, O.
Qed.
Lemma caseA s : claimF (S s) -> claimB s -> claimA (S s).
Proof.
  intros F B i l U T p tc rest v q V L Wh S H R. destruct i as [e|e z|l0 tc0].
  - cbn [isz] in L. apply (atom_does (TE e) e (str e) false l (atom_TE e) U T p tc rest v q V); auto.
    intros T' p' U' l1 l2 W' S' Un ->. rewrite lsz_app in L. apply (B l2 T' p' U' ltac:(lia) W' S' Un).
  - cbn [isz] in L. apply (atom_does (TX e z) e None true l (atom_TX e z) U T p tc rest v q V); auto.
    intros T' p' U' l1 l2 W' S' Un ->. rewrite lsz_app in L. apply (B l2 T' p' U' ltac:(lia) W' S' Un).
  - assert (Qq : q = [] \/ exists e, str e <> None /\ l0 = [([], IE e)] /\ fl (IE e) U = Some (v, q)).
    { destruct (fill_IB _ _ _ _ _ H) as [(Sc & i & -> & -> & Hi)|[(C & e & z & -> & Se & -> & Hi)|(Ns & Nst & -> & _)]]; [|right; exists e; rewrite Se; split; [discriminate|auto]|left; reflexivity].
      left. destruct (fill_valid (isz i) i U v q ltac:(lia) (whole_sub _ _ _ Wh S) Hi) as [_ Sq].
      destruct q; [reflexivity|]. exfalso. apply Sq. destruct U; [reflexivity|discriminate Sc..]. }
    assert (Qq' : q = []).
    { destruct Qq as [Q|(e & Se & -> & He)]; [exact Q|].
      destruct (fill_IB _ _ _ _ _ H) as [(Sc & i & Q & _ & Hi)|[(C & e' & z & Q & Se' & _ & Hi)|(Ns & Nst & -> & _)]]; [| |reflexivity].
      - destruct (fill_valid (isz i) i U v q ltac:(lia) (whole_sub _ _ _ Wh S) Hi) as [_ Sq].
        destruct q; [reflexivity|]. exfalso. apply Sq. destruct U; [reflexivity|discriminate Sc..].
      - injection Q as <-. destruct U as [|k t|]; try discriminate. cbn [fill dive] in Hi. rewrite C, Se' in Hi. injection Hi as <- <-. reflexivity. }
    subst q. rewrite app_nil_r in R.
    destruct (F (IB l0 tc0) U v ltac:(lia) (whole_sub _ _ _ Wh S) H (Rest l tc rest)) as [Nv G].
    exists v, [], l, V. repeat split; auto.
Qed.
Lemma caseB s : claimA (S s) -> claimB s -> claimB (S s).
Proof.
  intros Cl B l T p U L Wh S Un tc rest V k Lk R.
  assert (Stop : forall call, (forall n, goes (fun f => call f n) (n, Rest l tc rest)) -> rn T (nxt T p) l = Some V -> does T p U l tc rest V false call).
  { intros call G R'. exists [], [], l, V. repeat split; auto; [discriminate|]. intros n Sh. exists n. split; [apply G|]. split; [exact Sh|reflexivity]. }
  destruct (Nat.ltb k (kids U)) eqn:Lt.
  - destruct l as [|[[|d ds] i] l].
    + injection R as <-. apply Stop; [|reflexivity]. intros n. exists 1. intros [|f] Lf; [lia|]. apply listi_ends; [exact Logic.I|lia].
    + cbn [run] in R. apply Nat.ltb_lt in Lt. destruct (kid_ex U k Lt) as (W & K).
      rewrite (sub_snoc T p k U W S K) in R. destruct (fl i W) as [[v q]|] eqn:Fi; [|discriminate].
      destruct (rn T (nxt T ((p ++ [k]) ++ q)) l) as [w|] eqn:R2; [|discriminate]. injection R as <-.
      cbn [lsz] in L. pose proof (isz_pos i) as Ip.
      pose proof (Cl i l W T (p ++ [k]) tc rest v q w L Wh (sub_snoc T p k U W S K) Fi R2) as I0.
      assert (I1 : does T p U l tc rest (map (pre (p ++ [k])) v ++ w) true (fun f n => listi f U n (Rest (([], i) :: l) tc rest) k)).
      { apply (then_list T p U k W l tc rest _ (fun n => n)) with (3 := K) (7 := I0); auto.
        - intros l1 l2 ->. rewrite lsz_app in L. apply (B l2 T p U ltac:(lia) Wh S Un).
        - intros n c c' t a Nc G G2.
          destruct (hard_stops _ (text_hard i (Rest l tc rest))) as [Hs Hr].
          apply goes_S with (h := fun f => bind (on_child U n k (fun U c => init2 f U c (text i ++ Rest l tc rest))) (fun '(n, t) => listi f U n t (Datatypes.S k))).
          + intros f. rewrite listi_S. assert (Ln : Nat.ltb k (length (arr n)) = true) by (apply Nat.ltb_lt, nth_error_Some; congruence).
            rewrite Ln. unfold Rest. cbn [more dtoks app at_rb negb andb]. destruct k as [|k']; [lia|]. cbn [skip_comma bind].
            rewrite <- app_assoc. change (more text l tc ++ RB :: rest) with (Rest l tc rest). rewrite Hs. reflexivity.
          + apply (goes_bind _ (fun f '(n, t) => listi f U n t (Datatypes.S k)) (with_arr n (upd (arr n) k c'), t)); [|exact G2].
            apply goes_ext with (h := fun f => bind (init2 f W c (text i ++ Rest l tc rest)) (fun '(c', a) => ROk (with_arr n (upd (arr n) k c'), a))).
            { intros f. rewrite (on_child_eq U n k W c _ K Nc). reflexivity. }
            apply (goes_bind _ (fun f '(c', a) => ROk (with_arr n (upd (arr n) k c'), a)) _ _ G). apply goes_ret. }
      destruct I1 as (D & l1 & l' & V' & Ql & QV & R3 & _ & H).
      exists D, (([], i) :: l1), l', V'. split; [cbn [app]; rewrite <- Ql; reflexivity|]. split; [exact QV|]. split; [exact R3|]. split; [discriminate|exact H].
    + apply Stop; [|rewrite <- R; apply run_ends; cbn; discriminate].
      intros n. exists 1. intros [|f] Lf; [lia|]. apply listi_ends; [cbn; discriminate|lia].
  - intros. 
    assert (St : does T p U l tc rest V false (fun f n => listi f U n (Rest l tc rest) k)).
    { exists [], [], l, V. split; [reflexivity|]. split; [reflexivity|]. split; [exact R|]. split; [discriminate|].
      intros n Sh. exists n. split; [|split; [exact Sh|reflexivity]]. exists 1. intros [|f] Lf; [lia|]. rewrite listi_S.
      rewrite (shape_len E U n Sh), Lt. reflexivity. }
    exact St.
Qed.

(** * Designators *)
Lemma lookup_member s T :
  match lookup s T with
  | Some p => exists k p' W named, p = k :: p' /\ member T s = Some (k, named) /\ kid T k = Some W /\
      (if named : bool then p' = [] else lookup s W = Some p')
  | None => member T s = None
  end.
Proof.
  induction T as [T IH] using ity_kids_ind. destruct T as [b|a t|u ms]; [reflexivity|reflexivity|].
  cbn [lookup member].
  assert (G : forall ms1 ms2, ms = ms1 ++ ms2 ->
    match (fix go (k : nat) (ms : list (option string * ity)) : option path :=
         match ms with
         | [] => None
         | (Some x, _) :: r => if String.eqb x s then Some [k] else go (S k) r
         | (None, t) :: r => match lookup s t with Some q => Some (k :: q) | None => go (S k) r end
         end) (length ms1) ms2 with
    | Some p => exists k p' W named, p = k :: p' /\ (fix go (k : nat) (ms : list (option string * ity)) : option (nat * bool) :=
         match ms with
         | [] => None
         | (None, t) :: r => match member t s with Some _ => Some (k, false) | None => go (Datatypes.S k) r end
         | (Some x, _) :: r => if String.eqb x s then Some (k, true) else go (Datatypes.S k) r
         end) (length ms1) ms2 = Some (k, named) /\ kid (IStr u ms) k = Some W /\ (if named : bool then p' = [] else lookup s W = Some p')
    | None => (fix go (k : nat) (ms : list (option string * ity)) : option (nat * bool) :=
         match ms with
         | [] => None
         | (None, t) :: r => match member t s with Some _ => Some (k, false) | None => go (Datatypes.S k) r end
         | (Some x, _) :: r => if String.eqb x s then Some (k, true) else go (Datatypes.S k) r
         end) (length ms1) ms2 = None
    end).
  { intros ms1 ms2. revert ms1. induction ms2 as [|[o t] ms2 IHm]; intros ms1 Q; [reflexivity|].
    assert (K : kid (IStr u ms) (length ms1) = Some t) by (cbn [kid]; rewrite Q, nth_error_app2, Nat.sub_diag by lia; reflexivity).
    specialize (IHm (ms1 ++ [(o, t)])). rewrite app_length in IHm. cbn [length] in IHm. rewrite Nat.add_1_r, <- app_assoc in IHm. specialize (IHm Q).
    destruct o as [x|].
    - destruct (String.eqb x s); [|exact IHm]. exists (length ms1), [], t, true. auto.
    - specialize (IH _ _ K). destruct (lookup s t) as [p|] eqn:Lk.
      + destruct IH as (k & p' & W & named & _ & M & _). rewrite M. exists (length ms1), p, t, false. auto.
      + rewrite IH. exact IHm. }
  apply (G [] ms eq_refl).
Qed.
Lemma does_ext T p U l tc rest V ne call call2 : does T p U l tc rest V ne call ->
  (forall n a, goes (fun f => call f n) a -> goes (fun f => call2 f n) a) -> does T p U l tc rest V ne call2.
Proof.
  intros (D & l1 & l' & V' & Ql & QV & R & Ne & H) C. exists D, l1, l', V'. repeat split; auto.
  intros n Sh. destruct (H n Sh) as (n' & G & X). exists n'. split; [apply C, G|exact X].
Qed.
Lemma with_kind_list n : kindof n = KList -> with_kind KList n = n.
Proof. destruct n; cbn. intros ->. reflexivity. Qed.
Lemma caseD s : claimA (S s) -> claimB s -> claimD (S s).
Proof.
  intros Cl B i l r. induction r as [|k r IH]; intros ds U T p tc rest W v q V L Wh S Rs SW Fi R.
  - destruct ds as [|d ds].
    + cbn [sub] in SW. injection SW as <-. rewrite app_nil_r. cbn [app] in R. cbn [map app].
      apply (does_ext _ _ _ _ _ _ _ _ _ _ (Cl i l U T p tc rest v q V L Wh S Fi R)).
      intros n a G. refine (goes_S _ _ _ _ G). intros f. apply desg_eq.
    + exfalso. cbn [resolve] in Rs. destruct d as [z|x].
      * destruct U as [|a t|]; try discriminate. destruct ((0 <=? z)%Z && (z <? Z.of_nat a)%Z); [|discriminate].
        cbn [sub] in Rs. destruct (kid (IArr a t) (Z.to_nat z)) as [X|]; [|discriminate]. destruct (resolve X ds); discriminate.
      * pose proof (lookup_member x U) as M. destruct (lookup x U) as [p1|]; [|discriminate].
        destruct M as (k & p' & X & named & -> & _). destruct (sub U (k :: p')) as [Y|]; [|discriminate]. destruct (resolve Y ds); discriminate.
  - (* the element or member, then the rest *)
    assert (Go : forall X ds2 t (tw : ini -> ini), (forall n, arr (tw n) = arr n) -> (forall n, kindof n = KList -> tw n = n) ->
      kid U k = Some X -> resolve X ds2 = Some r ->
      (forall n c c' t2 a, is_union U = false -> nth_error (arr n) k = Some c -> goes (fun f => desg f X c (map dtok ds2 ++ t)) (c', t2) ->
        goes (fun f => listi f U (with_arr (tw n) (upd (arr n) k c')) t2 (Datatypes.S k)) a -> goes (fun f => desg f U n (map dtok ds ++ t)) a) ->
      (forall n c c' t2, is_union U = true -> nth_error (arr n) k = Some c -> goes (fun f => desg f X c (map dtok ds2 ++ t)) (c', t2) ->
        goes (fun f => desg f U n (map dtok ds ++ t)) (with_arr (with_slot (SMem k) (tw n)) (upd (arr n) k c'), t2)) ->
      t = EQ :: text i ++ Rest l tc rest ->
      does T p U l tc rest (map (pre (p ++ k :: r)) v ++ V) true (fun f n => desg f U n (map dtok ds ++ t))).
    { intros X ds2 t tw Tw1 Tw2 K Rs2 C1 C2 ->. cbn [sub] in SW. rewrite K in SW.
      assert (I0 : does T (p ++ [k]) X l tc rest (map (pre ((p ++ [k]) ++ r)) v ++ V) true (fun f n => desg f X n (map dtok ds2 ++ EQ :: text i ++ Rest l tc rest))).
      { apply (IH ds2 X T (p ++ [k]) tc rest W v q V L Wh (sub_snoc T p k U X S K) Rs2 SW Fi). rewrite <- app_assoc. exact R. }
      rewrite <- app_assoc in I0. cbn [app] in I0. pose proof (isz_pos i) as Ip.
      destruct (is_union U) eqn:Un.
      - apply (then_union T p U k X l tc rest _ tw _ _ S Un K Tw1 Tw2 I0). intros n c c' t2 Nc G. apply (C2 n c c' t2 eq_refl Nc G).
      - apply (then_list T p U k X l tc rest _ tw _ _ true S Un K Tw1 Tw2 (or_introl eq_refl) I0).
        + intros l1 l2 ->. rewrite lsz_app in L. apply (B l2 T p U ltac:(lia) Wh S Un).
        + intros n c c' t2 a Nc G G2. apply (C1 n c c' t2 a eq_refl Nc G G2). }
    destruct ds as [|d ds]; [discriminate|]. cbn [resolve] in Rs. destruct d as [z|x].
    + destruct U as [|a t|]; try discriminate. destruct ((0 <=? z)%Z && (z <? Z.of_nat a)%Z) eqn:Z; [|discriminate].
      cbn [sub] in Rs. destruct (kid (IArr a t) (Z.to_nat z)) as [X|] eqn:K; [|discriminate].
      destruct (resolve X ds) as [r'|] eqn:Rs2; [|discriminate]. injection Rs as <- <-.
      apply andb_prop in Z. destruct Z as [Z1 Z2]. apply Z.leb_le in Z1. apply Z.ltb_lt in Z2.
      pose proof (whole_sub _ _ _ Wh S) as WU. cbn [whole] in WU. destruct WU as [_ [Wa _]].
      assert (Ad : array_designator a z z = ROk (z, z)).
      { unfold array_designator. assert (Ic : int_conv z = z).
        { unfold int_conv, sext. rewrite Z.mod_small by lia. destruct (z <? 2 ^ (32 - 1))%Z eqn:Lz; [reflexivity|]. apply Z.ltb_ge in Lz. change (32 - 1)%Z with 31%Z in Lz. lia. }
        rewrite Ic. assert (L1 : (Z.of_nat a <=? z)%Z = false) by (apply Z.leb_gt; lia). rewrite L1, Z.ltb_irrefl. reflexivity. }
      assert (Zn : (z <? 0)%Z = false) by (apply Z.ltb_ge; lia).
      apply (Go X ds _ (with_kind KList)); auto; try (intros [? ? ?]; reflexivity); [exact with_kind_list| |discriminate].
      intros n c c' t2 a2 _ Nc G G2. cbn [map app dtok].
      apply goes_S with (h := fun f => bind (each f (IArr a t) (with_kind KList n) (map dtok ds ++ EQ :: text i ++ Rest l tc rest) (Z.to_nat z) 1 (map dtok ds ++ EQ :: text i ++ Rest l tc rest))
        (fun '(n, t') => listi f (IArr a t) n t' (Datatypes.S (Z.to_nat z)))).
      { intros f. rewrite desg_idx, Ad. cbn [bind]. rewrite Zn, Nat.sub_diag. reflexivity. }
      apply (goes_bind _ (fun f '(n, t') => listi f (IArr a t) n t' (Datatypes.S (Z.to_nat z))) (with_arr (with_kind KList n) (upd (arr n) (Z.to_nat z) c'), t2)); [|exact G2].
      apply goes_S with (h := fun f => bind (bind (desg f X c (map dtok ds ++ EQ :: text i ++ Rest l tc rest)) (fun '(c', a0) => ROk (with_arr (with_kind KList n) (upd (arr n) (Z.to_nat z) c'), a0)))
        (fun '(n, t') => each f (IArr a t) n (map dtok ds ++ EQ :: text i ++ Rest l tc rest) (Datatypes.S (Z.to_nat z)) 0 t')).
      { intros f. rewrite each_S. rewrite (on_child_eq (IArr a t) (with_kind KList n) (Z.to_nat z) X c _ K) by (destruct n; exact Nc). destruct n; reflexivity. }
      apply (goes_bind _ (fun f '(n, t') => each f (IArr a t) n (map dtok ds ++ EQ :: text i ++ Rest l tc rest) (Datatypes.S (Z.to_nat z)) 0 t') (with_arr (with_kind KList n) (upd (arr n) (Z.to_nat z) c'), t2)).
      * apply (goes_bind _ (fun f '(c', a0) => ROk (with_arr (with_kind KList n) (upd (arr n) (Z.to_nat z) c'), a0)) _ _ G). apply goes_ret.
      * exists 1. intros [|f] Lf; [lia|]. reflexivity.
    + pose proof (lookup_member x U) as M. destruct (lookup x U) as [p1|]; [|discriminate].
      destruct M as (k1 & p' & X & named & -> & Mb & K & Nm). cbn [sub] in Rs. rewrite K in Rs.
      destruct (sub X p') as [Y|] eqn:SY; [|discriminate]. destruct (resolve Y ds) as [r'|] eqn:Rs2; [|discriminate].
      cbn [app] in Rs. injection Rs as -> <-.
      set (ds2 := if named then ds else DMem x :: ds).
      assert (Rs3 : resolve X ds2 = Some (p' ++ r')).
      { unfold ds2. destruct named.
        - subst p'. cbn [sub] in SY. injection SY as <-. exact Rs2.
        - cbn [resolve]. rewrite Nm, SY, Rs2. reflexivity. }
      assert (Qt : forall t : list tok, (if named then map dtok ds ++ t else DOT x :: map dtok ds ++ t) = map dtok ds2 ++ t).
      { intros t. unfold ds2. destruct named; reflexivity. }
      apply (Go X ds2 _ (with_kind KList)); auto; try (intros [? ? ?]; reflexivity); [exact with_kind_list| |].
      * intros n c c' t2 a2 Un Nc G G2. cbn [map app dtok].
        apply goes_S with (h := fun f => bind (bind (desg f X c (map dtok ds2 ++ EQ :: text i ++ Rest l tc rest)) (fun '(c', a0) => ROk (with_arr (with_kind KList n) (upd (arr n) k c'), a0)))
          (fun '(n, t') => listi f U n t' (Datatypes.S k))).
        { intros f. rewrite desg_dot, Mb. cbv zeta. rewrite Un, Qt.
          rewrite (on_child_eq U (with_kind KList n) k X c _ K) by (destruct n; exact Nc). destruct n; reflexivity. }
        apply (goes_bind _ (fun f '(n, t') => listi f U n t' (Datatypes.S k)) (with_arr (with_kind KList n) (upd (arr n) k c'), t2)); [|exact G2].
        apply (goes_bind _ (fun f '(c', a0) => ROk (with_arr (with_kind KList n) (upd (arr n) k c'), a0)) _ _ G). apply goes_ret.
      * intros n c c' t2 Un Nc G. cbn [map app dtok].
        apply goes_S with (h := fun f => bind (desg f X c (map dtok ds2 ++ EQ :: text i ++ Rest l tc rest)) (fun '(c', a0) => ROk (with_arr (with_slot (SMem k) (with_kind KList n)) (upd (arr n) k c'), a0))).
        { intros f. rewrite desg_dot, Mb. cbv zeta. rewrite Un, Qt.
          rewrite (on_child_eq U (with_slot (SMem k) (with_kind KList n)) k X c _ K) by (destruct n; exact Nc). destruct n; reflexivity. }
        apply (goes_bind _ (fun f '(c', a0) => ROk (with_arr (with_slot (SMem k) (with_kind KList n)) (upd (arr n) k c'), a0)) _ _ G). apply goes_ret.
Qed.

Lemma all_claims s : claimA s /\ claimB s /\ claimD s /\ claimF s.
Proof.
  induction s as [|s (Cl & B & Dg & F)].
  - assert (F : claimF 0) by (intros i U v L; pose proof (isz_pos i); lia).
    assert (Cl : claimA 0) by (intros i l U T p tc rest v q V L; pose proof (isz_pos i); lia).
    assert (Dg : claimD 0) by (intros i l r ds U T p tc rest W v q V L; pose proof (isz_pos i); lia).
    split; [exact Cl|]. split; [|split; [exact Dg|exact F]].
    intros l T p U L Wh S Un tc rest V k Lk R.
    assert (Ql : l = []) by (destruct l as [|[ds i] l]; [reflexivity|cbn [lsz] in L; pose proof (isz_pos i); lia]). subst l.
    injection R as <-. exists [], [], [], []. repeat split; [discriminate|]. intros n Sh. exists n. split; [|split; [exact Sh|reflexivity]].
    exists 1. intros [|f] Lf; [lia|]. apply listi_ends; [exact Logic.I|lia].
  - pose proof (caseF s Cl B Dg F) as F'. pose proof (caseA s F' B) as Cl'. pose proof (caseB s Cl' B) as B'.
    pose proof (caseD s Cl' B) as Dg'. auto.
Qed.

(** * The whole *)
Theorem initializer_does i T V rest : whole T -> fl i T = Some (V, []) -> tidy V ->
  exists n A, goes (fun f => init2 f T (new T) (text i ++ rest)) (n, rest) /\ assigns T n = ROk A /\
  forall x b, sub T x = Some (IScal b) -> final T V x <> VOther -> final T A x = final T V x.
Proof.
  intros Wh H Ti. destruct (all_claims (isz i)) as (_ & _ & _ & F).
  destruct (F i T V (le_n _) Wh H rest) as [_ G]. destruct (G (new T) (new_shape E T)) as (n & G1 & _ & Ok).
  destruct (fill_valid (isz i) i T V [] (le_n _) Wh H) as [Va _].
  destruct (history E T V Va Ti) as (O & _). rewrite (Ok O) in G1.
  destruct (assigned E T V Va Ti) as (A & QA & Fin). eauto.
Qed.
End Parse.
