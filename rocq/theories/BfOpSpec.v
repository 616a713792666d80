(** Assignments to bit-fields (ISO C11 6.5.2.4, 6.5.3.1, 6.5.16), independent of the model. *)
From Coq Require Import ZArith List Bool.
From Verif Require Import IntSpec StmtSpec BfSpec.
Local Open Scope Z_scope.

(** s.x = e, s.x op= e, ++s.x or --s.x, s.x++ or s.x--. *)
Inductive beff :=
| BSet (e : exp)
| BOp (o : aop) (e : exp)
| BPre (inc : bool)
| BPost (inc : bool).

(** Whether the old value of the field is read. *)
Definition reads (a : beff) : Prop := match a with BSet _ => False | _ => True end.

(** The operands use only the variables [V]. *)
Definition uses_in (V : list (ityp * nat)) (a : beff) : Prop :=
  match a with BSet e | BOp _ e => uses V e | BPre _ | BPost _ => True end.

(** The value assigned to the field, of declared type [t] and width [w], which holds
    [env x]; [None] is undefined behaviour. *)
Definition bvalue (env : nat -> Z) (t : ityp) (w off : Z) (x : nat) (a : beff) : option Z :=
  match (match a with
         | BSet e => ceval env e
         | BOp o e => ceval env (aexp o (EField t w off x) e)
         | BPre inc | BPost inc =>
             ceval env (EBin (if inc then BAdd else BSub) (EField t w off x) (ENum TInt 1))
         end) with
  | Some z => Some (conv t z)
  | None => None
  end.

(** Division in the type C prescribes and in the type that follows from the declared type of
    the field give the same: the two types have the same sign, and the same width if they
    are unsigned. *)
Definition same_division (t : ityp) (w : Z) (r : ityp) : Prop :=
  let u := usual (promote_field t w) r in
  let v := usual (promote t) r in
  isigned u = isigned v /\ (isigned u = true \/ iwidth u = iwidth v).

(** Divisions of values that are not negative, or in such types. *)
Definition division_ok (env : nat -> Z) (t : ityp) (w : Z) (x : nat) (a : beff) : Prop :=
  match a with
  | BOp (ABin BDiv) e | BOp (ABin BMod) e =>
      same_division t w (promoted e (ctype e)) \/
      (0 <= env x /\ forall y, ceval env e = Some y -> 0 <= y)
  | _ => True
  end.

(** The value of the expression: that of the field after the assignment of [v] or, after a
    postfix operator, before it. *)
Definition bresult (env : nat -> Z) (t : ityp) (w : Z) (x : nat) (a : beff) (v : Z) : Z :=
  match a with BPost _ => env x | _ => field_conv t w v end.
(** Results the compiler gets wrong (see C21). *)
Definition bad_bresult (t : ityp) (w off : Z) (a : beff) : Prop :=
  match a with BPost _ => False | _ => bad_value t w off end.
