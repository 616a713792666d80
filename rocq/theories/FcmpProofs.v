From Coq Require Import ZArith List Bool.
From Verif Require Import FcmpSpec FcmpModel.
Import ListNotations.
Local Open Scope Z_scope.

(** The state before: the left operand on top of the x87 stack. *)
Definition ready (m : fm) : Prop := st0 m = Lhs /\ st1 m = Rhs /\ jumped m = false.

Lemma cmp_ok : forall f k lr m, ready m -> al (frun lr (cmp_code f k) m) = val (holds_rel k lr) /\ jumped (frun lr (cmp_code f k) m) = false.
Proof.
  intros f k lr m (A & B & C). destruct f; destruct k; cbn [cmp_code set_code app frun fold_left fexec];
  unfold set_al, set_dl; cbn [st0 st1 fz fp fc al dl jumped]; rewrite ?A, ?B;
  destruct lr as [[| |]|]; cbn; rewrite ?C; split; reflexivity.
Qed.
Lemma frun_app : forall lr a b m, frun lr (a ++ b) m = frun lr b (frun lr a m).
Proof. intros. apply fold_left_app. Qed.
Lemma plain_ok : forall f e lr m, ready m -> al (frun lr (gen_plain f e) m) = val (truth e lr) /\ jumped (frun lr (gen_plain f e) m) = false.
Proof.
  intros f e lr m R. induction e as [k|a IH|a IH]; cbn [gen_plain truth].
  - apply cmp_ok. exact R.
  - destruct IH as [I1 I2]. rewrite frun_app. unfold frun at 1 3. cbn [fold_left fexec set_al al jumped]. split; [|exact I2]. rewrite I1. destruct (truth a lr); reflexivity.
  - exact IH.
Qed.
Lemma opt_is : forall e h, bool_expr_opt e h = (leaf e, xorb h (odd_nots e)).
Proof.
  induction e as [k|a IH|a IH]; intros h; cbn [bool_expr_opt leaf odd_nots].
  - rewrite xorb_false_r. reflexivity.
  - rewrite IH. f_equal. destruct h, (odd_nots a); reflexivity.
  - apply IH.
Qed.
Lemma truth_is : forall e lr, truth e lr = xorb (odd_nots e) (holds_rel (leaf e) lr).
Proof.
  induction e as [k|a IH|a IH]; intros lr; cbn [truth leaf odd_nots].
  - destruct (holds_rel k lr); reflexivity.
  - rewrite IH. destruct (odd_nots a), (holds_rel (leaf a) lr); reflexivity.
  - apply IH.
Qed.
Lemma flip_ok : forall k fl lr, (fl = false \/ lr <> None \/ k = FEq \/ k = FNe) -> holds_rel (flip_cmp k fl) lr = xorb fl (holds_rel k lr).
Proof.
  intros k fl lr H. destruct fl; [|cbn [flip_cmp]; destruct (holds_rel k lr); reflexivity].
  destruct lr as [[| |]|]; destruct k; try reflexivity; destruct H as [H|[H|[H|H]]]; try discriminate H; destruct H; reflexivity.
Qed.
Lemma value_ok : forall opt f e lr m, ready m -> (opt = false \/ odd_nots e = false \/ lr <> None \/ leaf e = FEq \/ leaf e = FNe) ->
  al (frun lr (gen_expr opt f e) m) = val (truth e lr).
Proof.
  intros opt f e lr m R H. unfold gen_expr. destruct opt; [|apply plain_ok; exact R].
  assert (G : al (frun lr (let '(k, flip) := bool_expr_opt e false in cmp_code f (flip_cmp k flip)) m) = val (truth e lr)).
  { rewrite opt_is. cbv beta iota zeta. rewrite (proj1 (cmp_ok f (flip_cmp (leaf e) (xorb false (odd_nots e))) lr m R)).
    rewrite xorb_false_l. rewrite flip_ok; [rewrite truth_is; reflexivity|]. destruct H as [H|[H|H]]; [discriminate H|left; exact H|right; exact H]. }
  destruct e; [apply cmp_ok; exact R|exact G|exact G].
Qed.
Lemma cond_ok : forall opt f e jc lr m, ready m -> jumped (frun lr (gen_cond opt f e jc) m) = Bool.eqb (truth e lr) jc.
Proof.
  intros opt f e jc lr m R. unfold gen_cond. destruct opt.
  - rewrite opt_is. cbv beta iota zeta. rewrite frun_app. destruct (cmp_ok f (leaf e) lr m R) as [C1 C2].
    unfold frun at 1. cbn [fold_left fexec jumped fz]. rewrite C1, C2, truth_is. destruct (holds_rel (leaf e) lr), (odd_nots e), jc; reflexivity.
  - cbv beta iota zeta. rewrite frun_app. destruct (plain_ok f e lr m R) as [C1 C2].
    unfold frun at 1. cbn [fold_left fexec jumped fz]. rewrite C1, C2. destruct (truth e lr), jc; reflexivity.
Qed.
