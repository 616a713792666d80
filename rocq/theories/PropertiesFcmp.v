(** C41: comparisons of floating values. *)
From Coq Require Import ZArith List Bool.
From Verif Require Import FcmpSpec FcmpModel FcmpProofs.
Import ListNotations.
Local Open Scope Z_scope.

(** C41: each comparison of float, double and long double values, unordered ones included, yields what C prescribes. *)
Theorem C41_compare : forall f k lr m, st0 m = Lhs -> st1 m = Rhs -> jumped m = false ->
  al (frun lr (cmp_code f k) m) = val (holds_rel k lr).
Proof. intros f k lr m A B C. exact (proj1 (cmp_ok f k lr m (conj A (conj B C)))). Qed.
Print Assumptions C41_compare.

(** C41: so does a comparison under any number of negations and conversions, without optimisation, with an even number of negations, with
    ordered operands, or for == and !=. *)
Theorem C41_negated : forall opt f e lr m, st0 m = Lhs -> st1 m = Rhs -> jumped m = false ->
  opt = false \/ odd_nots e = false \/ lr <> None \/ leaf e = FEq \/ leaf e = FNe ->
  al (frun lr (gen_expr opt f e) m) = val (truth e lr).
Proof. intros opt f e lr m A B C. exact (value_ok opt f e lr m (conj A (conj B C))). Qed.
Print Assumptions C41_negated.

(** C41: a branch on such a comparison is always taken as prescribed. *)
Theorem C41_branch : forall opt f e jc lr m, st0 m = Lhs -> st1 m = Rhs -> jumped m = false ->
  (jumped (frun lr (gen_cond opt f e jc) m) = true <-> truth e lr = jc).
Proof.
  intros opt f e jc lr m A B C. rewrite (cond_ok opt f e jc lr m (conj A (conj B C))). exact (Bool.eqb_true_iff (truth e lr) jc).
Qed.
Print Assumptions C41_branch.

Definition ex_m : fm := mkf Lhs Rhs false false false 77 99 false.
Example C41_example :
  al (frun (Some Gt) (gen_expr true X87 (FNot (FConv (FCmp FLe)))) ex_m) = 1 /\
  al (frun None (gen_expr true Sse (FNot (FCmp FEq))) ex_m) = 1 /\
  jumped (frun None (gen_cond true Sse (FNot (FCmp FLt)) true) ex_m) = true.
Proof. repeat split. Qed.

(** C41 refuted: with optimisation, the value of !(a < b) is computed as a >= b, which is 0 instead of 1 if a or b is not a number; likewise
    for <=, > and >=, and for all floating types. *)
Theorem C41_negated_refuted : forall f k m, k = FLt \/ k = FLe \/ k = FGt \/ k = FGe ->
  st0 m = Lhs -> st1 m = Rhs -> jumped m = false ->
  al (frun None (gen_expr true f (FNot (FCmp k))) m) = 0 /\ truth (FNot (FCmp k)) None = true.
Proof.
  intros f k m K A B C. split; [|destruct K as [-> |[-> |[-> | ->]]]; reflexivity].
  change (gen_expr true f (FNot (FCmp k))) with (cmp_code f (flip_cmp k true)).
  rewrite (proj1 (cmp_ok f (flip_cmp k true) None m (conj A (conj B C)))). destruct K as [-> |[-> |[-> | ->]]]; reflexivity.
Qed.
Print Assumptions C41_negated_refuted.
