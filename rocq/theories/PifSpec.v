(** #if expressions (C11 6.10.1), independent of the model. *)
From Coq Require Import ZArith List Bool.
From Verif Require Import IntSpec NumSpec.
Import ListNotations.
Local Open Scope Z_scope.

(** A controlling expression after macro expansion. [PLit] is an integer constant: decimal or
    not, unsigned suffix, number of l in the suffix, value. [PInt] is a character constant, a
    defined operator or a remaining identifier: a value of type int. *)
Inductive pexp :=
| PLit (dec u : bool) (l : nat) (v : Z)
| PInt (v : Z)
| PUn (o : unop) (a : pexp)
| PBin (o : binop) (a b : pexp)
| PShl (a b : pexp)
| PShr (a b : pexp)
| PCmp (o : cmpop) (a b : pexp)
| PAnd (a b : pexp)
| POr (a b : pexp)
| PCond (c a b : pexp).

(** Constants that have a type. *)
Fixpoint lits_ok (p : pexp) : Prop :=
  match p with
  | PLit dec u l v => 0 <= v /\ (l <= 2)%nat /\ const_type dec u l v <> None
  | PInt v => in_range TInt v
  | PUn _ a => lits_ok a
  | PBin _ a b | PShl a b | PShr a b | PCmp _ a b | PAnd a b | POr a b => lits_ok a /\ lits_ok b
  | PCond c a b => lits_ok c /\ lits_ok a /\ lits_ok b
  end.

(** 6.10.1p4: all signed integer types act like intmax_t and all unsigned ones like
    uintmax_t, long and unsigned long here; so do the results of comparisons and logical
    operators. *)
Fixpoint as_intmax (p : pexp) : exp :=
  match p with
  | PLit _ u _ v => ENum (if u || (2 ^ 63 <=? v) then TULong else TLong) v
  | PInt v => ENum TLong v
  | PUn ULNot a => ECast TLong (EUn ULNot (as_intmax a))
  | PUn o a => EUn o (as_intmax a)
  | PBin o a b => EBin o (as_intmax a) (as_intmax b)
  | PShl a b => EShl (as_intmax a) (as_intmax b)
  | PShr a b => EShr (as_intmax a) (as_intmax b)
  | PCmp o a b => ECast TLong (ECmp o (as_intmax a) (as_intmax b))
  | PAnd a b => ECast TLong (ELAnd (as_intmax a) (as_intmax b))
  | POr a b => ECast TLong (ELOr (as_intmax a) (as_intmax b))
  | PCond c a b => ECond (as_intmax c) (as_intmax a) (as_intmax b)
  end.
Definition if_value (p : pexp) : option Z := ceval (fun _ => 0) (as_intmax p).

(** The same expression outside the preprocessor. *)
Fixpoint as_code (p : pexp) : exp :=
  match p with
  | PLit dec u l v => ENum (match const_type dec u l v with Some t => t | None => TInt end) v
  | PInt v => ENum TInt v
  | PUn o a => EUn o (as_code a)
  | PBin o a b => EBin o (as_code a) (as_code b)
  | PShl a b => EShl (as_code a) (as_code b)
  | PShr a b => EShr (as_code a) (as_code b)
  | PCmp o a b => ECmp o (as_code a) (as_code b)
  | PAnd a b => ELAnd (as_code a) (as_code b)
  | POr a b => ELOr (as_code a) (as_code b)
  | PCond c a b => ECond (as_code c) (as_code a) (as_code b)
  end.

(** [v] is the same number in both types. *)
Definition same_in (tc tp : ityp) (v : option Z) : Prop :=
  forall z, v = Some z -> conv tc z = conv tp z.
Definition common (a b : exp) : ityp := usual (promoted a (ctype a)) (promoted b (ctype b)).

(** Sufficient agreement of the two readings: every evaluated subexpression has a value its
    type in the code can represent; operands convert to the same number; a result type that
    is signed in the code is signed in the preprocessor; shift counts and quotients fit the
    type in the code. *)
Fixpoint modest (p : pexp) : Prop :=
  (forall z, if_value p = Some z -> in_range (ctype (as_code p)) z) /\
  match p with
  | PLit _ _ _ _ | PInt _ => True
  | PUn o a =>
      modest a /\
      (o = UNeg -> isigned (ctype (as_code p)) = true -> isigned (ctype (as_intmax p)) = true)
  | PBin o a b =>
      let tc := common (as_code a) (as_code b) in
      modest a /\ modest b /\
      same_in tc (common (as_intmax a) (as_intmax b)) (if_value a) /\
      same_in tc (common (as_intmax a) (as_intmax b)) (if_value b) /\
      (isigned (ctype (as_code p)) = true -> isigned (ctype (as_intmax p)) = true) /\
      (o = BMod -> forall x y, if_value a = Some x -> if_value b = Some y ->
         in_range tc (Z.quot (conv tc x) (conv tc y)))
  | PCmp _ a b =>
      modest a /\ modest b /\
      same_in (common (as_code a) (as_code b)) (common (as_intmax a) (as_intmax b)) (if_value a) /\
      same_in (common (as_code a) (as_code b)) (common (as_intmax a) (as_intmax b)) (if_value b)
  | PShl a b | PShr a b =>
      modest a /\ modest b /\ forall z, if_value b = Some z -> z < iwidth (ctype (as_code p))
  | PAnd a b => modest a /\ (if_value a <> Some 0 -> modest b)
  | POr a b => modest a /\ (if_value a = Some 0 -> modest b)
  | PCond c a b =>
      modest c /\
      (if_value c <> Some 0 -> modest a /\
         same_in (common (as_code a) (as_code b)) (common (as_intmax a) (as_intmax b)) (if_value a)) /\
      (if_value c = Some 0 -> modest b /\
         same_in (common (as_code a) (as_code b)) (common (as_intmax a) (as_intmax b)) (if_value b))
  end.

(** The everyday case: constants without u below 2^31, and every evaluated subexpression has
    a value of type int. *)
Fixpoint plain_lits (p : pexp) : Prop :=
  match p with
  | PLit _ u _ v => u = false /\ v < 2 ^ 31
  | PInt _ => True
  | PUn _ a => plain_lits a
  | PBin _ a b | PShl a b | PShr a b | PCmp _ a b | PAnd a b | POr a b => plain_lits a /\ plain_lits b
  | PCond c a b => plain_lits c /\ plain_lits a /\ plain_lits b
  end.
Fixpoint int_valued (p : pexp) : Prop :=
  (forall z, if_value p = Some z -> in_range TInt z) /\
  match p with
  | PLit _ _ _ _ | PInt _ => True
  | PUn _ a => int_valued a
  | PBin o a b => int_valued a /\ int_valued b /\ (o = BMod -> if_value a <> Some (- 2 ^ 31))
  | PCmp _ a b => int_valued a /\ int_valued b
  | PShl a b | PShr a b => int_valued a /\ int_valued b /\ forall z, if_value b = Some z -> z < 32
  | PAnd a b => int_valued a /\ (if_value a <> Some 0 -> int_valued b)
  | POr a b => int_valued a /\ (if_value a = Some 0 -> int_valued b)
  | PCond c a b =>
      int_valued c /\ (if_value c <> Some 0 -> int_valued a) /\ (if_value c = Some 0 -> int_valued b)
  end.
