(** Model of the concatenation of string literals (preprocess.c:1740-1802). *)
From Coq Require Import ZArith List Bool.
From Verif Require Import Base IntModel LexModel StrSpec.
Import ListNotations.
Local Open Scope Z_scope.

(** A TK_STR token: the text from tok->loc on, the element type ty->base, and the elements of
    tok->str without the terminator; array_len is their number plus one. *)
Record lit := mklit { lloc : list Z; lbase : ty; lunits : list Z }.
Definition esz (t : ty) : nat := Z.to_nat (sz t).
Definition lsize (t : lit) : nat := ((length (lunits t) + 1) * esz (lbase t))%nat.
(** The bytes at tok->str. *)
Definition lbytes (t : lit) : list Z := flat_map (le (esz (lbase t))) (lunits t) ++ repeat 0 (esz (lbase t)).

(** String literals as tokenize makes them, tokenize.c:706-743, with the types of
    tokenize.c:367, 403, 425. *)
Definition read_lit (p : list Z) : outcome lit :=
  match p with
  | 34 :: _ => do r <- read_string_literal E8 0 p; Ok (mklit p ty_pchar (fst r))
  | 117 :: 56 :: 34 :: _ => do r <- read_string_literal E8 2 p; Ok (mklit p ty_pchar (fst r))
  | 117 :: 34 :: _ => do r <- read_string_literal E16 1 p; Ok (mklit p ty_ushort (fst r))
  | 76 :: 34 :: _ => do r <- read_string_literal E32 1 p; Ok (mklit p ty_int (fst r))
  | 85 :: 34 :: _ => do r <- read_string_literal E32 1 p; Ok (mklit p ty_uint (fst r))
  | _ => Abort
  end.

Inductive skind := STR_NONE | STR_UTF8 | STR_UTF16 | STR_UTF32 | STR_WIDE.
Definition skind_eqb (a b : skind) : bool :=
  match a, b with
  | STR_NONE, STR_NONE | STR_UTF8, STR_UTF8 | STR_UTF16, STR_UTF16 | STR_UTF32, STR_UTF32 | STR_WIDE, STR_WIDE => true
  | _, _ => false
  end.
(** getStringKind, preprocess.c:1740-1751; strcmp compares the whole rest of the file. *)
Definition get_string_kind (p : list Z) : outcome skind :=
  match p with
  | 117 :: 56 :: 0 :: _ => Ok STR_UTF8
  | 34 :: _ => Ok STR_NONE
  | 117 :: _ => Ok STR_UTF16
  | 85 :: _ => Ok STR_UTF32
  | 76 :: _ => Ok STR_WIDE
  | _ => Abort
  end.
(** The loop at preprocess.c:1768-1776. *)
Fixpoint join_kinds (k : skind) (b : ty) (l : list lit) : outcome (skind * ty) :=
  match l with
  | [] => Ok (k, b)
  | t :: r =>
      do k2 <- get_string_kind (lloc t);
      if skind_eqb k STR_NONE then join_kinds k2 (lbase t) r
      else if negb (skind_eqb k2 STR_NONE) && negb (skind_eqb k k2) then Abort
      else join_kinds k b r
  end.
(** tokenize_string_literal, tokenize.c:635-643. *)
Definition tokenize_string_literal (t : lit) (b : ty) : outcome lit :=
  if sz b =? 2 then do r <- read_string_literal E16 0 (lloc t); Ok (mklit (lloc t) ty_ushort (fst r))
  else do r <- read_string_literal E32 0 (lloc t); Ok (mklit (lloc t) b (fst r)).
(** preprocess.c:1778-1781. *)
Fixpoint retokenize (b : ty) (l : list lit) : outcome (list lit) :=
  match l with
  | [] => Ok []
  | t :: r =>
      do t2 <- (if (1 <? sz b) && (sz (lbase t) =? 1) then tokenize_string_literal t b else Ok t);
      do r2 <- retokenize b r; Ok (t2 :: r2)
  end.
(** preprocess.c:1784-1786. *)
Definition join_len (t : lit) (l : list lit) : nat :=
  fold_left (fun n u => (n + (length (lunits u) + 1) - 1)%nat) l (length (lunits t) + 1)%nat.
(** The memcpy loop, preprocess.c:1790-1794; writing beyond the buffer is UB. *)
Fixpoint copy_lits (buf : list Z) (i : nat) (l : list lit) : outcome (list Z) :=
  match l with
  | [] => Ok buf
  | t :: r =>
      if (i + lsize t <=? length buf)%nat
      then copy_lits (firstn i buf ++ lbytes t ++ skipn (i + lsize t) buf) (i + lsize t - esz (lbase t)) r
      else UB
  end.
(** join_adjacent_string_literals, preprocess.c:1755-1802: the element type and the bytes. *)
Definition join_literals (t : lit) (l : list lit) : outcome (ty * list Z) :=
  do k <- get_string_kind (lloc t);
  do kb <- join_kinds k (lbase t) l;
  let b := snd kb in
  do l2 <- retokenize b (t :: l);
  match l2 with
  | [] => UB
  | t2 :: r2 =>
      do buf <- copy_lits (repeat 0 (esz b * join_len t2 r2)) 0 l2;
      Ok (b, buf)
  end.
