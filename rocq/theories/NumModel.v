(** Model of the conversion of pp-numbers to integer constants (tokenize.c:490-590). The floating
    point branch (strtold) is not modelled: it is the result [None]. *)
From Coq Require Import ZArith List Bool.
From Verif Require Import Base IntModel LexModel.
Import ListNotations.
Local Open Scope Z_scope.

(** A read of p[k] in a NUL-terminated buffer. *)
Definition rd (p : list Z) (k : nat) : outcome Z :=
  match nth_error p k with Some c => Ok c | None => UB end.

(** strtoul (C17 7.22.1.4) without leading white space and sign, which do not occur here: an
    optional 0x before hexadecimal digits in base 16, then the digits of the base; saturates. *)
Definition digit_val (c : Z) : Z :=
  if Inrange c 48 57 then c - 48
  else if Inrange (low c) 97 122 then low c - 97 + 10 else 99.
Fixpoint digits (base acc : Z) (p : list Z) : Z * nat :=
  match p with
  | [] => (acc, 0%nat)
  | c :: r =>
      if digit_val c <? base then
        let q := digits base (acc * base + digit_val c) r in (fst q, S (snd q))
      else (acc, 0%nat)
  end.
Definition ULONG_MAX : Z := 18446744073709551615.
Definition strtoul (base : Z) (p : list Z) : Z * nat :=
  let skip :=
    match p with
    | c :: d :: e :: _ => if (base =? 16) && (c =? 48) && (low d =? 120) && (digit_val e <? 16) then 2%nat else 0%nat
    | _ => 0%nat
    end in
  let q := digits base 0 (skipn skip p) in
  (Z.min (fst q) ULONG_MAX, (skip + snd q)%nat).

(** The type inference, tokenize.c:532-563; [val] is the int64_t. *)
Definition infer_type (base : Z) (ll l u : bool) (val : Z) : ty :=
  let hi n := negb (Z.shiftr val n =? 0) in
  if base =? 10 then
    if ll && u then ty_ullong
    else if l && u then ty_ulong
    else if ll then ty_llong
    else if l then ty_long
    else if u then (if hi 32 then ty_ulong else ty_uint)
    else (if hi 31 then ty_long else ty_int)
  else
    if ll && u then ty_ullong
    else if l && u then ty_ulong
    else if ll then (if hi 63 then ty_ullong else ty_llong)
    else if l then (if hi 63 then ty_ulong else ty_long)
    else if u then (if hi 32 then ty_ulong else ty_uint)
    else if hi 63 then ty_ulong
    else if hi 32 then ty_long
    else if hi 31 then ty_uint
    else ty_int.

(** tokenize.c:494-506: base and number of prefix bytes. *)
Definition int_prefix (p : list Z) : outcome (Z * nat) :=
  do c0 <- rd p 0;
  if c0 =? 48 then
    do c1 <- rd p 1;
    do x <- (if Casecmp c1 120 then do c2 <- rd p 2; Ok (Isxdigit c2) else Ok false);
    if x then Ok (16, 2%nat)
    else
      do b <- (if Casecmp c1 98 then do c2 <- rd p 2; Ok ((c2 =? 48) || (c2 =? 49)) else Ok false);
      if b then Ok (2, 2%nat) else Ok (8, 0%nat)
  else Ok (10, 0%nat).

(** tokenize.c:511-522: u, l_cnt. *)
Definition int_suffix (p : list Z) : outcome (bool * nat) :=
  do c0 <- rd p 0;
  if Casecmp c0 117 then
    do c1 <- rd p 1;
    if Casecmp c1 108 then do c2 <- rd p 2; Ok (true, if c1 =? c2 then 2%nat else 1%nat)
    else Ok (true, 0%nat)
  else if Casecmp c0 108 then
    do c1 <- rd p 1;
    let n := if c0 =? c1 then 2%nat else 1%nat in
    do c <- rd p n;
    Ok (Casecmp c 117, n)
  else Ok (false, 0%nat).

(** tokenize.c:490-567: [None] is the result false. [p] is the NUL-terminated buffer. *)
Definition convert_pp_int (p : list Z) (len : nat) : outcome (option (ty * Z)) :=
  do bp <- int_prefix p;
  let '(base, k) := bp in
  let q := strtoul base (skipn k p) in
  let val := sext 64 (fst q) in
  let p1 := (k + snd q)%nat in
  do s <- int_suffix (skipn p1 p);
  let '(u, lc) := s in
  if Nat.eqb (p1 + lc + (if u then 1 else 0))%nat len
  then Ok (Some (infer_type base (Nat.eqb lc 2) (Nat.eqb lc 1) u val, val))
  else Ok None.

(** tokenize.c:570-590 for a pp-number token spelled [w]. *)
Definition convert_pp_number (w : list Z) : outcome (option (ty * Z)) :=
  if (227 <=? length w)%nat then Abort
  else
    let buf := filter (fun c => negb (c =? 39)) w in
    convert_pp_int (buf ++ [0]) (length buf).
