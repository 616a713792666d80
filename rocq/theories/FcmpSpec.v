(** Comparisons of floating values, negated and converted. *)
From Coq Require Import ZArith List Bool.
Import ListNotations.
Local Open Scope Z_scope.

(** How two floating values compare; [None] if one of them is not a number (IEEE 754 unordered). *)
Definition rel := option comparison.
Inductive fcmp := FEq | FNe | FLt | FLe | FGt | FGe.
(** C 7.14.1, annex F.9.3: unordered operands make every comparison but != false. *)
Definition holds_rel (k : fcmp) (r : rel) : bool :=
  match r with
  | None => match k with FNe => true | _ => false end
  | Some c =>
      match k, c with
      | FEq, Eq => true | FEq, _ => false
      | FNe, Eq => false | FNe, _ => true
      | FLt, Lt => true | FLt, _ => false
      | FLe, Gt => false | FLe, _ => true
      | FGt, Gt => true | FGt, _ => false
      | FGe, Lt => false | FGe, _ => true
      end
  end.
(** A comparison under negations and conversions to integer types. *)
Inductive fexp := FCmp (k : fcmp) | FNot (e : fexp) | FConv (e : fexp).
Fixpoint truth (e : fexp) (r : rel) : bool :=
  match e with FCmp k => holds_rel k r | FNot a => negb (truth a r) | FConv a => truth a r end.
Definition val (b : bool) : Z := if b then 1 else 0.

(** The comparison at the bottom, and whether the number of negations is odd. *)
Fixpoint leaf (e : fexp) : fcmp := match e with FCmp k => k | FNot a | FConv a => leaf a end.
Fixpoint odd_nots (e : fexp) : bool := match e with FCmp _ => false | FNot a => negb (odd_nots a) | FConv a => odd_nots a end.
