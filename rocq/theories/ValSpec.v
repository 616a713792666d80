(** Specification of the values of assignments, ++ and -- (ISO C11 6.5.2.4, 6.5.3.1, 6.5.16,
    6.5.17), independent of the model. *)
From Coq Require Import ZArith List Bool.
From Verif Require Import IntSpec StmtSpec.
Local Open Scope Z_scope.

(** Type of the value: that of the object assigned to. [XNone] has no value. *)
Fixpoint etype (a : eff) : ityp :=
  match a with
  | XNone => TInt
  | XE e => ctype e
  | XSet t _ _ | XOp _ t _ _ | XPre _ t _ | XPost _ t _ => t
  | XSeq _ b => etype b
  end.

(** Value of the expression and values of the variables afterwards; [None] is undefined
    behaviour or no value. An assignment, a compound assignment and a prefix operator yield
    the new value of the object; a postfix operator yields the old one. *)
Fixpoint evalue (env : nat -> Z) (a : eff) : option (Z * (nat -> Z)) :=
  match a with
  | XNone => None
  | XE e => match ceval env e with Some v => Some (v, env) | None => None end
  | XSet _ x _ | XOp _ _ x _ | XPre _ _ x =>
      match effect env a with Some env' => Some (env' x, env') | None => None end
  | XPost _ _ x => match effect env a with Some env' => Some (env x, env') | None => None end
  | XSeq a b => match effect env a with Some env1 => evalue env1 b | None => None end
  end.

(** The value of an object of type [t] after ++ or -- (6.5.2.4p2, 6.5.3.1p2, 6.3.1.2, 6.3.1.3):
    _Bool becomes true by ++ and is inverted by --; unsigned types wrap around; signed types
    narrower than int are converted back from int. *)
Definition stepped (inc : bool) (t : ityp) (v : Z) : Z :=
  match t with
  | TBool => if inc then 1 else 1 - v
  | _ => conv t (if inc then v + 1 else v - 1)
  end.
(** No overflow of int, long or long long. *)
Definition no_overflow (inc : bool) (t : ityp) (v : Z) : Prop :=
  isigned t = true -> 32 <= iwidth t -> in_range t (if inc then v + 1 else v - 1).
