(** Conversions between integer and floating types. *)
From Coq Require Import ZArith List Bool.
From Verif Require Import IntSpec.
Import ListNotations.
Local Open Scope Z_scope.

(** A finite floating value: fst * 2 ^ snd. *)
Definition dy := (Z * Z)%type.
(** It has a mantissa of at most [p] bits. *)
Definition fits (p : Z) (x : dy) : Prop := Z.abs (fst x) < 2 ^ p.
(** C 6.3.1.4: the fractional part is discarded. *)
Definition trunc_dy (x : dy) : Z := if 0 <=? snd x then fst x * 2 ^ snd x else Z.quot (fst x) (2 ^ (- snd x)).
(** The same value. *)
Definition same (a b : dy) : Prop :=
  let e := Z.min (snd a) (snd b) in fst a * 2 ^ (snd a - e) = fst b * 2 ^ (snd b - e).
(** The nearest integer with a mantissa of [p] bits, the even one of two (IEEE 754 roundTiesToEven). *)
Definition rne (p n : Z) : Z :=
  let a := Z.abs n in
  let k := Z.log2 a + 1 - p in
  if k <=? 0 then n
  else
    let q := a / 2 ^ k in
    let r := a mod 2 ^ k in
    let up := (2 ^ (k - 1) <? r) || (r =? 2 ^ (k - 1)) && Z.odd q in
    Z.sgn n * ((if up then q + 1 else q) * 2 ^ k).

(** The conversions from long double that are right: see C42_f80_refuted for the others. *)
Definition ok80 (T : ityp) (v : Z) : Prop :=
  match T with TShort => 0 <= v < 256 | TUShort => v < 32768 | TUInt => v < 2 ^ 31 | _ => True end.
(** Arithmetic that gives the exact result when the format has it. *)
Definition exact_on (p : Z) (rnd : dy -> dy) : Prop := forall y z, fits p z -> same y z -> same (rnd y) z.
