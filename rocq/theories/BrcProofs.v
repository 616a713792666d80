(** The theorems of C58 and the initializers that are parsed wrongly. *)
From Coq Require Import String ZArith List Bool Lia PeanoNat.
From Verif Require Import Base BrcSpec BrcModel BrcTree BrcParse BrcCount BrcEnd BrcCases.
Import ListNotations.
Local Open Scope string_scope.
Local Open Scope list_scope.

Lemma steady {A} (g : nat -> res A) k r : (forall f, g (k + f) = r) -> exists N, forall f, N <= f -> g f = r.
Proof. intros H. exists k. intros f L. replace f with (k + (f - k)) by lia. apply H. Qed.

Theorem initializers E (compat : E -> ity -> bool) str i T V rest :
  whole T -> fill compat str false i T = Some (V, []) -> tidy V ->
  exists n A, (exists N, forall f, N <= f -> init2 compat str f T (new T) (text i ++ rest) = ROk (n, rest)) /\
  assigns T n = ROk A /\
  forall x b, sub T x = Some (IScal b) -> final T V x <> VOther -> final T A x = final T V x.
Proof. exact (initializer_does E compat str i T V rest). Qed.
Theorem unknown_bound E (compat : E -> ity -> bool) str i U a V rest :
  whole (IArr a U) -> fill compat str false i (IArr a U) = Some (V, []) -> reach V < a -> reach V <> 0 -> tidy V ->
  exists n A, (exists N, forall f, N <= f -> unknown compat str f U (text i ++ rest) = ROk (reach V, (n, rest))) /\
  assigns (IArr (reach V) U) n = ROk A /\
  forall x b, sub (IArr (reach V) U) x = Some (IScal b) -> final (IArr (reach V) U) V x <> VOther ->
    final (IArr (reach V) U) A x = final (IArr (reach V) U) V x.
Proof. exact (unknown_does E compat str i U a V rest). Qed.

(** A check that events are tidy. *)
Definition apartb {E} (v w : ev E) : bool :=
  match below (place v) (place w), below (place w) (place v) with
  | None, None => true
  | a, b => match v, a with Clear _, Some _ => true | _, _ => match w, b with Put _ _, Some _ => true | _, _ => false end end
  end.
Fixpoint tidyb {E} (l : list (ev E)) : bool :=
  match l with [] => true | v :: r => forallb (apartb v) r && tidyb r end.
Lemma apartb_ok {E} (v w : ev E) : apartb v w = true -> apart v w.
Proof.
  unfold apartb, apart. destruct (below (place v) (place w)) as [p0|] eqn:A, (below (place w) (place v)) as [q0|] eqn:B; auto;
    destruct v as [p|p s], w as [q|q s1]; cbn [place] in *; intros H; try discriminate;
    try (right; left; exists p; split; [reflexivity|congruence]); right; right; eexists; eexists; split; try reflexivity; congruence.
Qed.
Lemma tidyb_ok {E} (l : list (ev E)) : tidyb l = true -> tidy l.
Proof.
  induction l as [|x l IH]; intros H a v b w c Q.
  - destruct a; discriminate.
  - cbn [tidyb] in H. apply andb_prop in H. destruct H as [H1 H2]. destruct a as [|y a]; injection Q as <- ->.
    + rewrite forallb_forall in H1. apply apartb_ok, H1. apply in_or_app. right. left. reflexivity.
    + apply (IH H2 a v b w c eq_refl).
Qed.

Ltac run k := split; [apply (steady _ k); intros f; vm_compute; reflexivity|].
Ltac wrongly := unfold wrong; split; [repeat (split; try lia; try discriminate)|split; [eexists; reflexivity|]];
  eexists; eexists; eexists; split; [vm_compute; reflexivity|split; [vm_compute; reflexivity|
  split; [apply (steady _ 40); intros f; vm_compute; reflexivity|split; [vm_compute; reflexivity|split; [vm_compute; reflexivity|discriminate]]]]].

Lemma override_list : wrong exT (IB [(m "a", bl [1; 2]); (m "a", bl [3])] false) [0; 1] VZero (VSrc (SE 2) []).
Proof. wrongly. Qed.
Lemma override_string : wrong exT (IB [(m "s", IE 500); (m "s", IE 501)] false) [1; 2] VZero (VSrc (SC 99) []).
Proof. wrongly. Qed.
Lemma override_struct : wrong exT (IB [(m "a", IE 1000); (m "a", bl [1; 2])] false) [0; 0] (VSrc (SE 1) []) (VSrc (SE 1000) [0]).
Proof. wrongly. Qed.
Lemma override_part : wrong exT (IB [(m "a", IE 1000); ([DMem "a"; DMem "x"], IE 1)] false) [0; 1] (VSrc (SE 1000) [1]) VZero.
Proof. wrongly. Qed.
Lemma string_comma : wrong (IArr 4 (IScal true)) (IB [([], IE 500)] true) [0] (VSrc (SC 97) []) (VSrc (SE 500) []).
Proof. wrongly. Qed.
Lemma override_union : let i := IB [(m "w", IE 1001); (m "w", bl [1])] false in
  exists V n, fill ex_compat ex_str true i exT = Some (V, []) /\ final exT V [4; 0] = VSrc (SE 1) [] /\
    (exists N, forall f, N <= f -> init2 ex_compat ex_str f exT (new exT) (text i) = ROk (n, [])) /\ assigns exT n = RUB.
Proof.
  intros i. eexists. eexists. split; [vm_compute; reflexivity|split; [vm_compute; reflexivity|]].
  split; [apply (steady _ 40); intros f; vm_compute; reflexivity|vm_compute; reflexivity].
Qed.
Ltac refuse := split; [repeat (split; try lia; try discriminate)|split; [eexists; vm_compute; reflexivity|apply (steady _ 40); intros f; vm_compute; reflexivity]].
Lemma refusals : refused (IScal true) (IB [([], IE 3)] true) /\ refused (IScal true) (IB [] false) /\
  refused (IArr 2 (IArr 4 (IScal true))) (IB [([], IX 7 [97; 0]%Z); ([], IE 8)] false).
Proof. split; [refuse|split; refuse]. Qed.
Lemma indices : (forall V, fill ex_compat ex_str true (IB [([DIdx (-1)], IE 1)] false) (IArr 3 (IScal true)) <> Some V) /\
  (exists N, forall f, N <= f -> init2 ex_compat ex_str f (IArr 3 (IScal true)) (new (IArr 3 (IScal true))) (text (IB [([DIdx (-1)], IE 1)] false)) = RUB) /\
  (forall V, fill ex_compat ex_str true (IB [([DIdx (2 ^ 32)], IE 1)] false) (IArr 3 (IScal true)) <> Some V) /\
  exists n, exists N, forall f, N <= f -> init2 ex_compat ex_str f (IArr 3 (IScal true)) (new (IArr 3 (IScal true))) (text (IB [([DIdx (2 ^ 32)], IE 1)] false)) = ROk (n, []).
Proof.
  split; [intros V; vm_compute; discriminate|]. split; [apply (steady _ 40); intros f; vm_compute; reflexivity|].
  split; [intros V; vm_compute; discriminate|]. eexists. apply (steady _ 40); intros f; vm_compute; reflexivity.
Qed.
