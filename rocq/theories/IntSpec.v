(** Specification of C integer expressions (ISO C, LP64), independent of the model.
    Clause numbers refer to C11. *)
From Coq Require Import ZArith List Bool.
Local Open Scope Z_scope.

(** Integer types. Plain char is signed on this target. *)
Inductive ityp :=
  TBool | TChar | TSChar | TUChar | TShort | TUShort
| TInt | TUInt | TLong | TULong | TLLong | TULLong.

(** Width in bits of the value representation (6.2.6.2), LP64. *)
Definition iwidth (t : ityp) : Z :=
  match t with
  | TBool => 1
  | TChar | TSChar | TUChar => 8
  | TShort | TUShort => 16
  | TInt | TUInt => 32
  | TLong | TULong | TLLong | TULLong => 64
  end.

Definition isigned (t : ityp) : bool :=
  match t with
  | TChar | TSChar | TShort | TInt | TLong | TLLong => true
  | _ => false
  end.

Definition imin (t : ityp) : Z := if isigned t then - 2 ^ (iwidth t - 1) else 0.
Definition imax (t : ityp) : Z := if isigned t then 2 ^ (iwidth t - 1) - 1 else 2 ^ iwidth t - 1.
Definition in_range (t : ityp) (v : Z) : Prop := imin t <= v <= imax t.
Definition in_rangeb (t : ityp) (v : Z) : bool := (imin t <=? v) && (v <=? imax t).

(** Conversion to an integer type (6.3.1.2, 6.3.1.3): _Bool tests against zero; otherwise
    the value of the target type congruent modulo 2^width (for signed targets this is the
    choice of every compiler for this platform). *)
Definition conv (t : ityp) (z : Z) : Z :=
  match t with
  | TBool => if z =? 0 then 0 else 1
  | _ => if isigned t then (z + 2 ^ (iwidth t - 1)) mod 2 ^ iwidth t - 2 ^ (iwidth t - 1)
         else z mod 2 ^ iwidth t
  end.

(** Conversion rank (6.3.1.1p1). *)
Definition irank (t : ityp) : Z :=
  match t with
  | TBool => 0
  | TChar | TSChar | TUChar => 1
  | TShort | TUShort => 2
  | TInt | TUInt => 3
  | TLong | TULong => 4
  | TLLong | TULLong => 5
  end.

Definition to_uns (t : ityp) : ityp :=
  match t with
  | TChar | TSChar => TUChar | TShort => TUShort | TInt => TUInt
  | TLong => TULong | TLLong => TULLong | _ => t
  end.

(** [t] can represent every value of [s]. *)
Definition represents (t s : ityp) : bool := (imin t <=? imin s) && (imax s <=? imax t).

(** Integer promotions (6.3.1.1p2) of an operand that is not a bit-field. *)
Definition promote (t : ityp) : ityp :=
  if irank t <? irank TInt then (if represents TInt t then TInt else TUInt) else t.

(** Promotion of a bit-field of declared type [t] and width [w]. *)
Definition fmin (t : ityp) (w : Z) : Z := if isigned t then - 2 ^ (w - 1) else 0.
Definition fmax (t : ityp) (w : Z) : Z := if isigned t then 2 ^ (w - 1) - 1 else 2 ^ w - 1.
Definition promote_field (t : ityp) (w : Z) : ityp :=
  if (imin TInt <=? fmin t w) && (fmax t w <=? imax TInt) then TInt
  else if (imin TUInt <=? fmin t w) && (fmax t w <=? imax TUInt) then TUInt
  else t.

Definition ityp_eqb (a b : ityp) : bool :=
  match a, b with
  | TBool, TBool | TChar, TChar | TSChar, TSChar | TUChar, TUChar
  | TShort, TShort | TUShort, TUShort | TInt, TInt | TUInt, TUInt
  | TLong, TLong | TULong, TULong | TLLong, TLLong | TULLong, TULLong => true
  | _, _ => false
  end.

(** Usual arithmetic conversions (6.3.1.8) of two already promoted types. *)
Definition usual (a b : ityp) : ityp :=
  if ityp_eqb a b then a
  else if Bool.eqb (isigned a) (isigned b) then (if irank a <? irank b then b else a)
  else
    let u := if isigned a then b else a in
    let s := if isigned a then a else b in
    if irank s <=? irank u then u
    else if represents s u then s
    else to_uns s.

Inductive unop := UPos | UNeg | UBitNot | ULNot.
Inductive binop := BAdd | BSub | BMul | BDiv | BMod | BAnd | BOr | BXor.
Inductive cmpop := CEq | CNe | CLt | CLe | CGt | CGe.

(** Side-effect free integer expressions. Objects are named by numbers; a bit-field
    also has its declared type, width and bit position in its storage unit. *)
Inductive exp :=
| ENum (t : ityp) (z : Z)
| EVar (t : ityp) (x : nat)
| EField (t : ityp) (w off : Z) (x : nat)
| EUn (o : unop) (a : exp)
| EBin (o : binop) (a b : exp)
| EShl (a b : exp)
| EShr (a b : exp)
| ECmp (o : cmpop) (a b : exp)
| ELAnd (a b : exp)
| ELOr (a b : exp)
| ECond (c a b : exp)
| EComma (a b : exp)
| ECast (t : ityp) (a : exp).

(** Width of the bit-field an expression designates, if it designates one. *)
Fixpoint field_width (e : exp) : option Z :=
  match e with
  | EField _ w _ _ => Some w
  | EComma _ b => field_width b
  | _ => None
  end.

Definition promoted (e : exp) (t : ityp) : ityp :=
  match field_width e with
  | Some w => promote_field t w
  | None => promote t
  end.

(** Type of an expression (6.5). *)
Fixpoint ctype (e : exp) : ityp :=
  match e with
  | ENum t _ | EVar t _ | EField t _ _ _ | ECast t _ => t
  | EUn ULNot _ => TInt
  | EUn _ a => promoted a (ctype a)
  | EBin _ a b => usual (promoted a (ctype a)) (promoted b (ctype b))
  | EShl a _ | EShr a _ => promoted a (ctype a)
  | ECmp _ _ _ | ELAnd _ _ | ELOr _ _ => TInt
  | ECond _ a b => usual (promoted a (ctype a)) (promoted b (ctype b))
  | EComma _ b => ctype b
  end.

(** Arithmetic in type [t] on operands already converted to [t]: [None] is undefined
    behaviour (6.5p5, 6.5.5p5, 6.5.5p6). *)
Definition wrap_or_undef (t : ityp) (z : Z) : option Z :=
  if isigned t then (if in_rangeb t z then Some z else None) else Some (conv t z).

Definition c_bin (o : binop) (t : ityp) (x y : Z) : option Z :=
  match o with
  | BAdd => wrap_or_undef t (x + y)
  | BSub => wrap_or_undef t (x - y)
  | BMul => wrap_or_undef t (x * y)
  | BDiv => if y =? 0 then None else wrap_or_undef t (Z.quot x y)
  | BMod => if y =? 0 then None
            else if in_rangeb t (Z.quot x y) then Some (Z.rem x y) else None
  | BAnd => Some (Z.land x y)
  | BOr => Some (Z.lor x y)
  | BXor => Some (Z.lxor x y)
  end.

(** Shifts (6.5.7): undefined unless 0 <= count < width. Left shifts of signed operands
    produce the low bits and right shifts of negative operands are arithmetic, as every
    compiler for this platform does. *)
Definition c_shift (left : bool) (t : ityp) (x n : Z) : option Z :=
  if (0 <=? n) && (n <? iwidth t) then
    Some (if left then conv t (x * 2 ^ n) else x / 2 ^ n)
  else None.

Definition c_cmp (o : cmpop) (x y : Z) : bool :=
  match o with
  | CEq => x =? y | CNe => negb (x =? y) | CLt => x <? y
  | CLe => x <=? y | CGt => y <? x | CGe => y <=? x
  end.

Definition b2z (b : bool) : Z := if b then 1 else 0.

(** Value of an expression when object [x] holds [env x]; [None] = undefined behaviour. *)
Fixpoint ceval (env : nat -> Z) (e : exp) : option Z :=
  match e with
  | ENum _ z => Some z
  | EVar _ x | EField _ _ _ x => Some (env x)
  | EUn ULNot a =>
      match ceval env a with Some x => Some (b2z (x =? 0)) | None => None end
  | EUn o a =>
      match ceval env a with
      | Some x =>
          let t := promoted a (ctype a) in
          let x' := conv t x in
          match o with
          | UNeg => wrap_or_undef t (- x')
          | UBitNot => Some (conv t (- x' - 1))
          | _ => Some x'
          end
      | None => None
      end
  | EBin o a b =>
      match ceval env a, ceval env b with
      | Some x, Some y =>
          let t := usual (promoted a (ctype a)) (promoted b (ctype b)) in
          c_bin o t (conv t x) (conv t y)
      | _, _ => None
      end
  | EShl a b =>
      match ceval env a, ceval env b with
      | Some x, Some n => let t := promoted a (ctype a) in c_shift true t (conv t x) n
      | _, _ => None
      end
  | EShr a b =>
      match ceval env a, ceval env b with
      | Some x, Some n => let t := promoted a (ctype a) in c_shift false t (conv t x) n
      | _, _ => None
      end
  | ECmp o a b =>
      match ceval env a, ceval env b with
      | Some x, Some y =>
          let t := usual (promoted a (ctype a)) (promoted b (ctype b)) in
          Some (b2z (c_cmp o (conv t x) (conv t y)))
      | _, _ => None
      end
  | ELAnd a b =>
      match ceval env a with
      | Some x => if x =? 0 then Some 0
                  else match ceval env b with Some y => Some (b2z (negb (y =? 0))) | None => None end
      | None => None
      end
  | ELOr a b =>
      match ceval env a with
      | Some x => if negb (x =? 0) then Some 1
                  else match ceval env b with Some y => Some (b2z (negb (y =? 0))) | None => None end
      | None => None
      end
  | ECond c a b =>
      let t := usual (promoted a (ctype a)) (promoted b (ctype b)) in
      match ceval env c with
      | Some x =>
          match (if x =? 0 then ceval env b else ceval env a) with
          | Some v => Some (conv t v)
          | None => None
          end
      | None => None
      end
  | EComma a b =>
      match ceval env a with Some _ => ceval env b | None => None end
  | ECast t a =>
      match ceval env a with Some x => Some (conv t x) | None => None end
  end.

(** Well-formed expression in an environment: literals fit their type, objects hold
    values of their type, bit-fields hold values of their width. *)
Fixpoint wf (env : nat -> Z) (e : exp) : Prop :=
  match e with
  | ENum t z => in_range t z
  | EVar t x => in_range t (env x)
  | EField t w off x =>
      1 <= w <= iwidth t /\ 0 <= off /\ off + w <= Z.max 8 (iwidth t) /\
      fmin t w <= env x <= fmax t w
  | EUn _ a => wf env a
  | EBin _ a b | EShl a b | EShr a b | ECmp _ a b | ELAnd a b | ELOr a b
  | EComma a b => wf env a /\ wf env b
  | ECond c a b => wf env c /\ wf env a /\ wf env b
  | ECast _ a => wf env a
  end.

(** 64-bit two's complement representation of a value, the form in which the compiler
    keeps the value of a constant expression. *)
Definition rep64 (v : Z) : Z := (v + 2 ^ 63) mod 2 ^ 64 - 2 ^ 63.

(** The value the bits of an object denote (used for objects whose contents are known at
    compile time): [raw] is the unsigned value of the storage unit. *)
Definition obj_value (t : ityp) (raw : Z) : Z := conv t raw.
Definition field_value (t : ityp) (w off raw : Z) : Z :=
  let b := (raw / 2 ^ off) mod 2 ^ w in
  if isigned t && (2 ^ (w - 1) <=? b) then b - 2 ^ w else b.

(** Compile-time contents [kn] of constant objects agree with run-time values. *)
Fixpoint known_ok (kn : nat -> option Z) (env : nat -> Z) (e : exp) : Prop :=
  match e with
  | ENum _ _ => True
  | EVar t x => forall raw, kn x = Some raw ->
      0 <= raw < 2 ^ Z.max 8 (iwidth t) /\ env x = obj_value t raw /\ (t = TBool -> raw <= 1)
  | EField t w off x => forall raw, kn x = Some raw ->
      0 <= raw < 2 ^ Z.max 8 (iwidth t) /\ env x = field_value t w off raw
  | EUn _ a | ECast _ a => known_ok kn env a
  | EBin _ a b | EShl a b | EShr a b | ECmp _ a b | ELAnd a b | ELOr a b
  | EComma a b => known_ok kn env a /\ known_ok kn env b
  | ECond c a b => known_ok kn env c /\ known_ok kn env a /\ known_ok kn env b
  end.

(** Every object mentioned has known contents: the expression is a constant expression. *)
Fixpoint constant (kn : nat -> option Z) (e : exp) : Prop :=
  match e with
  | ENum _ _ => True
  | EVar _ x | EField _ _ _ x => kn x <> None
  | EUn _ a | ECast _ a => constant kn a
  | EBin _ a b | EShl a b | EShr a b | ECmp _ a b | ELAnd a b | ELOr a b
  | EComma a b => constant kn a /\ constant kn b
  | ECond c a b => constant kn c /\ constant kn a /\ constant kn b
  end.

(** No cast is applied directly to a comma expression that designates a bit-field. *)
Fixpoint plain_casts (e : exp) : Prop :=
  match e with
  | ENum _ _ | EVar _ _ | EField _ _ _ _ => True
  | EUn _ a => plain_casts a
  | ECast _ a => plain_casts a /\ match a with EComma _ _ => field_width a = None | _ => True end
  | EBin _ a b | EShl a b | EShr a b | ECmp _ a b | ELAnd a b | ELOr a b
  | EComma a b => plain_casts a /\ plain_casts b
  | ECond c a b => plain_casts c /\ plain_casts a /\ plain_casts b
  end.
