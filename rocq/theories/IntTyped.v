(** Meaning of typed expression trees (used between the front end and code generation):
    each node is evaluated in the type recorded on it. *)
From Coq Require Import ZArith List Bool.
From Verif Require Import Base IntSpec IntModel.
Local Open Scope Z_scope.

(** The C type a Type object stands for. *)
Definition ity (t : ty) : ityp :=
  match kd t, uns t with
  | KBool, _ => TBool
  | KPChar, _ => TChar
  | KChar, false => TSChar | KChar, true => TUChar
  | KShort, false => TShort | KShort, true => TUShort
  | KInt, false => TInt | KInt, true => TUInt
  | KLong, false => TLong | KLong, true => TULong
  | KLLong, false => TLLong | KLLong, true => TULLong
  end.

Definition opt2 (f : Z -> Z -> option Z) (a b : option Z) : option Z :=
  match a, b with Some x, Some y => f x y | _, _ => None end.

Fixpoint teval (env : nat -> Z) (n : node) : option Z :=
  match n with
  | NNum t v => Some (conv (ity t) v)
  | NVar _ x | NBit _ _ _ x => Some (env x)
  | NPos _ a => teval env a
  | NNeg t a => match teval env a with Some x => wrap_or_undef (ity t) (- x) | None => None end
  | NBitNot t a => match teval env a with Some x => Some (conv (ity t) (- x - 1)) | None => None end
  | NNot a => match teval env a with Some x => Some (b2z (x =? 0)) | None => None end
  | NBin o t a b => opt2 (c_bin o (ity t)) (teval env a) (teval env b)
  | NShl t a b => opt2 (c_shift true (ity t)) (teval env a) (teval env b)
  | NShr t a b =>
      opt2 (fun x y => if x <? 0 then None else c_shift false (ity t) x y)
           (teval env a) (teval env b)
  | NSar t a b =>
      opt2 (fun x y => c_shift false (ity t) x y) (teval env a) (teval env b)
  | NCmp o a b => opt2 (fun x y => Some (b2z (c_cmp o x y))) (teval env a) (teval env b)
  | NLogAnd a b =>
      match teval env a with
      | Some x => if x =? 0 then Some 0
                  else match teval env b with Some y => Some (b2z (negb (y =? 0))) | None => None end
      | None => None
      end
  | NLogOr a b =>
      match teval env a with
      | Some x => if negb (x =? 0) then Some 1
                  else match teval env b with Some y => Some (b2z (negb (y =? 0))) | None => None end
      | None => None
      end
  | NCond _ c a b =>
      match teval env c with
      | Some x => if x =? 0 then teval env b else teval env a
      | None => None
      end
  | NComma _ a b => match teval env a with Some _ => teval env b | None => None end
  | NCast t a => match teval env a with Some x => Some (conv (ity t) x) | None => None end
  end.

(** Well-typed trees: what the parser guarantees to later passes. *)
Definition is_ty (t : ty) : Prop := mty (ity t) = t.
Definition arith_ty (t : ty) : Prop := is_ty t /\ 4 <= sz t.

Fixpoint wtn (n : node) : Prop :=
  match n with
  | NNum t v => is_ty t /\ v = rep64 (conv (ity t) v)
  | NVar t _ => is_ty t
  | NBit t w off _ => is_ty t /\ 1 <= w <= iwidth (ity t) /\ 0 <= off /\
                      off + w <= 8 * sz t
  | NPos t a | NNeg t a | NBitNot t a => arith_ty t /\ nty a = t /\ wtn a
  | NNot a => wtn a
  | NBin _ t a b => arith_ty t /\ nty a = t /\ nty b = t /\ wtn a /\ wtn b
  | NShl t a b => arith_ty t /\ nty a = t /\ wtn a /\ wtn b
  | NShr t a b => arith_ty t /\ nty a = t /\ wtn a /\ wtn b
  | NSar t a b => arith_ty t /\ nty a = t /\ uns t = false /\ wtn a /\ wtn b
  | NCmp _ a b => arith_ty (nty a) /\ nty b = nty a /\ wtn a /\ wtn b
  | NLogAnd a b | NLogOr a b => wtn a /\ wtn b
  | NCond t c a b => is_ty t /\ nty a = t /\ nty b = t /\ wtn c /\ wtn a /\ wtn b
  | NComma t a b => nty b = t /\ wtn a /\ wtn b
  | NCast t a => is_ty t /\ wtn a
  end.

(** Objects hold values of their types. *)
Fixpoint venv (env : nat -> Z) (n : node) : Prop :=
  match n with
  | NNum _ _ => True
  | NVar t x => in_range (ity t) (env x)
  | NBit t w _ x => fmin (ity t) w <= env x <= fmax (ity t) w
  | NPos _ a | NNeg _ a | NBitNot _ a | NNot a | NCast _ a => venv env a
  | NBin _ _ a b | NShl _ a b | NShr _ a b | NSar _ a b | NCmp _ a b
  | NLogAnd a b | NLogOr a b | NComma _ a b => venv env a /\ venv env b
  | NCond _ c a b => venv env c /\ venv env a /\ venv env b
  end.

(** The compile-time contents of constant objects agree with their run-time values. *)
Fixpoint kenv (c : cfg) (env : nat -> Z) (n : node) : Prop :=
  match n with
  | NNum _ _ => True
  | NVar t x => forall raw, known c x = Some raw ->
                  0 <= raw < 2 ^ (8 * sz t) /\ env x = obj_value (ity t) raw
                  /\ (kd t = KBool -> raw <= 1)
  | NBit t w off x => forall raw, known c x = Some raw ->
                  0 <= raw < 2 ^ (8 * sz t) /\ env x = field_value (ity t) w off raw
  | NPos _ a | NNeg _ a | NBitNot _ a | NNot a | NCast _ a => kenv c env a
  | NBin _ _ a b | NShl _ a b | NShr _ a b | NSar _ a b | NCmp _ a b
  | NLogAnd a b | NLogOr a b | NComma _ a b => kenv c env a /\ kenv c env b
  | NCond _ k a b => kenv c env k /\ kenv c env a /\ kenv c env b
  end.

(** Every object read is known at compile time. *)
Fixpoint nclosed (c : cfg) (n : node) : Prop :=
  match n with
  | NNum _ _ => True
  | NVar _ x | NBit _ _ _ x => known c x <> None
  | NPos _ a | NNeg _ a | NBitNot _ a | NNot a | NCast _ a => nclosed c a
  | NBin _ _ a b | NShl _ a b | NShr _ a b | NSar _ a b | NCmp _ a b
  | NLogAnd a b | NLogOr a b | NComma _ a b => nclosed c a /\ nclosed c b
  | NCond _ k a b => nclosed c k /\ nclosed c a /\ nclosed c b
  end.
