(** Model of unicode.c and of the code-point loops of the string literal readers
    (tokenize.c:379-428). Bytes are integers in 0..255; a buffer is the list of bytes from
    the current pointer to the end of the allocation, reading outside it is UB. *)
From Coq Require Import ZArith List Bool.
From Verif Require Import Base UnicodeTables.
Import ListNotations.
Local Open Scope Z_scope.

(** unicode.c:3-4 *)
Definition MASK (bits : Z) : Z := (Z.shiftl 1 bits - 1) mod 256.
Definition MASK2 (bits shift : Z) : Z := (Z.shiftl (MASK bits) shift) mod 256.

(** unicode.c:12-36; the bytes stored (a char store keeps the low 8 bits), the length of
    the list is the returned length. [c] is a uint32_t. *)
Definition encode_utf8 (c : Z) : list Z :=
  map (fun b => b mod 256)
  (if c <=? 127 then [c]
   else if c <=? 2047 then
     [Z.lor (MASK2 2 6) (Z.shiftr c 6); Z.lor (MASK2 1 7) (Z.land c (MASK 6))]
   else if c <=? 65535 then
     [Z.lor (MASK2 3 5) (Z.shiftr c 12);
      Z.lor (MASK2 1 7) (Z.land (Z.shiftr c 6) (MASK 6));
      Z.lor (MASK2 1 7) (Z.land c (MASK 6))]
   else
     [Z.lor (MASK2 4 4) (Z.shiftr c 18);
      Z.lor (MASK2 1 7) (Z.land (Z.shiftr c 12) (MASK 6));
      Z.lor (MASK2 1 7) (Z.land (Z.shiftr c 6) (MASK 6));
      Z.lor (MASK2 1 7) (Z.land c (MASK 6))]).

(** unicode.c:67-72: continuation bytes; [c << 6] is uint32_t *)
Fixpoint decode_tail (n : nat) (c : Z) (p : list Z) : outcome Z :=
  match n with
  | O => Ok c
  | S n' =>
      match p with
      | [] => UB
      | b :: r =>
          if Z.shiftr b 6 =? MASK2 1 1
          then decode_tail n' (Z.lor (Z.shiftl c 6 mod two32) (Z.land b (MASK 6))) r
          else Abort
      end
  end.

(** unicode.c:45-76; returns the code point and the number of bytes consumed *)
Definition decode_utf8 (p : list Z) : outcome (Z * nat) :=
  match p with
  | [] => UB
  | b :: r =>
      if b <? 128 then Ok (b, 1%nat)
      else
        do lc <- (if MASK2 4 4 <=? b then Ok (4%nat, Z.land b (MASK 3))
                  else if MASK2 3 5 <=? b then Ok (3%nat, Z.land b (MASK 4))
                  else if MASK2 2 6 <=? b then Ok (2%nat, Z.land b (MASK 5))
                  else Abort);
        do c <- decode_tail (fst lc - 1) (snd lc) r;
        Ok (c, fst lc)
  end.

(** unicode.c:78-87 *)
Fixpoint in_range (c : Z) (t : list (Z * Z)) : bool :=
  match t with
  | [] => false
  | (first, last) :: r =>
      if last <? c then in_range c r
      else if first <=? c then true
      else false
  end.

(** unicode.c:93-266, 272-372 *)
Definition is_ident1 (c : Z) : bool := in_range c ident1_table.
Definition is_ident2 (c : Z) : bool := is_ident1 c || in_range c ident2_table.

(** unicode.c:378-431 *)
Definition char_width (c : Z) : Z :=
  if in_range c width0_table then 0
  else if in_range c width2_table then 2
  else 1.

(** tokenize.c:391-399: the units stored for one decoded code point (uint16_t stores) *)
Definition utf16_units (c : Z) : list Z :=
  if c <? 65536 then [c mod 65536]
  else
    let c' := (c - 65536) mod two32 in
    [(55296 + Z.land (Z.shiftr c' 10) 1023) mod 65536;
     (56320 + Z.land c' 1023) mod 65536].

(** tokenize.c:384-400 and 417-422, for a literal body without escapes: [p] is the text
    between the quotes; [emit] is utf16_units or the single uint32_t *)
Fixpoint read_units (fuel : nat) (emit : Z -> list Z) (p : list Z) : outcome (list Z) :=
  match fuel with
  | O => Abort
  | S f =>
      match p with
      | [] => Ok []
      | _ =>
          do cn <- decode_utf8 p;
          do rest <- read_units f emit (skipn (snd cn) p);
          Ok (emit (fst cn) ++ rest)
      end
  end.
Definition read_utf16_body (p : list Z) : outcome (list Z) :=
  read_units (S (length p)) utf16_units p.
Definition read_utf32_body (p : list Z) : outcome (list Z) :=
  read_units (S (length p)) (fun c => [c mod two32]) p.
