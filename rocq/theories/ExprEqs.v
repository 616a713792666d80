(** One step of each parser function. *)
From Coq Require Import String ZArith List Bool.
From Verif Require Import Base DeclSpec DeclModel ExprSpec ExprModel.
Import ListNotations.

Ltac folded t td c au :=
  let r := eval fold (expr td c au) (assign td c au) (conditional td c au) (binary td c au) (binary_loop td c au) (typename_paren td c au) (cast td c au) (unary td c au) (postfix td c au) (funargs td c au) (primary td c au) (typename td c au) (declarator td c au) (type_suffix td c au) (array_dimensions td c au) (func_params td c au) (params td c au) in t in exact r.

Section Eqs.
Variable tdef : string -> option dtype.
Variables c23 auty : bool.
Lemma expr_S : forall f toks, expr tdef c23 auty (S f) toks =
  ltac:(let t := eval cbn [expr] in (expr tdef c23 auty (S f) toks) in folded t tdef c23 auty).
Proof. reflexivity. Qed.
Lemma assign_S : forall f toks, assign tdef c23 auty (S f) toks =
  ltac:(let t := eval cbn [assign] in (assign tdef c23 auty (S f) toks) in folded t tdef c23 auty).
Proof. reflexivity. Qed.
Lemma conditional_S : forall f toks, conditional tdef c23 auty (S f) toks =
  ltac:(let t := eval cbn [conditional] in (conditional tdef c23 auty (S f) toks) in folded t tdef c23 auty).
Proof. reflexivity. Qed.
Lemma binary_S : forall f l toks, binary tdef c23 auty (S f) l toks =
  ltac:(let t := eval cbn [binary] in (binary tdef c23 auty (S f) l toks) in folded t tdef c23 auty).
Proof. reflexivity. Qed.
Lemma binary_loop_S : forall f l a toks, binary_loop tdef c23 auty (S f) l a toks =
  ltac:(let t := eval cbn [binary_loop] in (binary_loop tdef c23 auty (S f) l a toks) in folded t tdef c23 auty).
Proof. reflexivity. Qed.
Lemma typename_paren_S : forall f toks, typename_paren tdef c23 auty (S f) toks =
  ltac:(let t := eval cbn [typename_paren] in (typename_paren tdef c23 auty (S f) toks) in folded t tdef c23 auty).
Proof. reflexivity. Qed.
Lemma cast_S : forall f toks, cast tdef c23 auty (S f) toks =
  ltac:(let t := eval cbn [cast] in (cast tdef c23 auty (S f) toks) in folded t tdef c23 auty).
Proof. reflexivity. Qed.
Lemma unary_S : forall f toks, unary tdef c23 auty (S f) toks =
  ltac:(let t := eval cbn [unary] in (unary tdef c23 auty (S f) toks) in folded t tdef c23 auty).
Proof. reflexivity. Qed.
Lemma postfix_S : forall f a toks, postfix tdef c23 auty (S f) a toks =
  ltac:(let t := eval cbn [postfix] in (postfix tdef c23 auty (S f) a toks) in folded t tdef c23 auty).
Proof. reflexivity. Qed.
Lemma funargs_S : forall f first toks, funargs tdef c23 auty (S f) first toks =
  ltac:(let t := eval cbn [funargs] in (funargs tdef c23 auty (S f) first toks) in folded t tdef c23 auty).
Proof. reflexivity. Qed.
Lemma primary_S : forall f toks, primary tdef c23 auty (S f) toks =
  ltac:(let t := eval cbn [primary] in (primary tdef c23 auty (S f) toks) in folded t tdef c23 auty).
Proof. reflexivity. Qed.
Lemma typename_S : forall f toks, typename tdef c23 auty (S f) toks =
  ltac:(let t := eval cbn [typename] in (typename tdef c23 auty (S f) toks) in folded t tdef c23 auty).
Proof. reflexivity. Qed.
Lemma declarator_S : forall f nm T toks, declarator tdef c23 auty (S f) nm T toks =
  ltac:(let t := eval cbn [declarator] in (declarator tdef c23 auty (S f) nm T toks) in folded t tdef c23 auty).
Proof. reflexivity. Qed.
Lemma type_suffix_S : forall f T toks, type_suffix tdef c23 auty (S f) T toks =
  ltac:(let t := eval cbn [type_suffix] in (type_suffix tdef c23 auty (S f) T toks) in folded t tdef c23 auty).
Proof. reflexivity. Qed.
Lemma array_dimensions_S : forall f T toks, array_dimensions tdef c23 auty (S f) T toks =
  ltac:(let t := eval cbn [array_dimensions] in (array_dimensions tdef c23 auty (S f) T toks) in folded t tdef c23 auty).
Proof. reflexivity. Qed.
Lemma func_params_S : forall f T toks, func_params tdef c23 auty (S f) T toks =
  ltac:(let t := eval cbn [func_params] in (func_params tdef c23 auty (S f) T toks) in folded t tdef c23 auty).
Proof. reflexivity. Qed.
Lemma params_S : forall f first toks, params tdef c23 auty (S f) first toks =
  ltac:(let t := eval cbn [params] in (params tdef c23 auty (S f) first toks) in folded t tdef c23 auty).
Proof. reflexivity. Qed.
End Eqs.
