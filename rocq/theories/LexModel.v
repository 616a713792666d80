(** Model of tokenize.c. A pointer into a NUL-terminated text is the list of bytes (0..255)
    from the pointer to the terminator inclusive; reading past the terminator is UB, and so is
    running out of fuel; error_at is Abort. Plain char is signed. Tokens carry offsets
    instead of pointers. *)
From Coq Require Import ZArith List Bool.
From Verif Require Import Base IntModel UnicodeTables UnicodeModel.
Import ListNotations.
Local Open Scope Z_scope.

(** slimcc.h:36-40. Ucast makes a byte of the argument. *)
Definition Inrange (c x y : Z) : bool := (x <=? c) && (c <=? y).
Definition Isdigit (c : Z) : bool := Inrange c 48 57.
Definition low (c : Z) : Z := Z.lor c 32.
Definition Isalnum (c : Z) : bool := Inrange (low c) 97 122 || Isdigit c.
Definition Isxdigit (c : Z) : bool := Isdigit c || Inrange (low c) 97 102.
Definition Casecmp (c a : Z) : bool := low c =? a.

(** tokenize.c:846-862. The text is changed in place; the result is what it holds afterwards
    up to the new terminator. strchr only skips a prefix without \r. *)
Fixpoint canonicalize_newline (p : list Z) : list Z :=
  match p with
  | [] => []
  | c :: r =>
      if c =? 0 then [0]
      else if c =? 13 then
        match r with
        | d :: r' => if d =? 10 then 10 :: canonicalize_newline r' else 10 :: canonicalize_newline r
        | [] => [10]
        end
      else c :: canonicalize_newline r
  end.

(** tokenize.c:865-886, likewise in place. [n] counts the newlines owed. *)
Fixpoint remove_backslash_newline2 (n : nat) (p : list Z) : list Z :=
  match p with
  | [] => []
  | c :: r =>
      if c =? 0 then [0]
      else
        let plain :=
          if c =? 10 then repeat 10 n ++ 10 :: remove_backslash_newline2 0 r
          else c :: remove_backslash_newline2 n r in
        if c =? 92 then
          match r with
          | d :: r' => if d =? 10 then remove_backslash_newline2 (S n) r' else plain
          | [] => plain
          end
        else plain
  end.
Definition remove_backslash_newline (p : list Z) : list Z := remove_backslash_newline2 0 p.

(** tokenize.c:621-633; [locs] are the offsets of the tokens in order, the result their line
    numbers. The last pointer visited is that of the terminator. *)
Fixpoint add_line_numbers (p : list Z) (off : nat) (n : Z) (locs : list nat) : list Z :=
  match p with
  | [] => []
  | c :: r =>
      let n' := if c =? 10 then n + 1 else n in
      match locs with
      | l :: ls =>
          if Nat.eqb off l then n :: (if c =? 0 then [] else add_line_numbers r (S off) n' ls)
          else if c =? 0 then [] else add_line_numbers r (S off) n' locs
      | [] => []
      end
  end.

(** tokenize.c:186-192. *)
Definition from_hex (c : Z) : Z :=
  if Inrange c 48 57 then c - 48 else if Inrange c 97 102 then c - 97 + 10 else c - 65 + 10.

(** tokenize.c:888-896. *)
Fixpoint read_universal_char (k : nat) (c : Z) (p : list Z) : outcome Z :=
  match k with
  | O => Ok c
  | S k' =>
      match p with
      | [] => UB
      | d :: r => if Isxdigit d then read_universal_char k' (Z.lor (c * 16 mod two32) (from_hex d)) r
                  else Ok 0
      end
  end.

(** tokenize.c:899-922, in place (an encoded character is never longer than its escape). *)
Fixpoint convert_universal_chars (f : nat) (p : list Z) : outcome (list Z) :=
  match f with
  | O => UB
  | S f' =>
      match p with
      | [] => UB
      | c :: r =>
          if c =? 0 then Ok [0]
          else
            let keep := do l <- convert_universal_chars f' r; Ok (c :: l) in
            if c =? 92 then
              match r with
              | [] => UB
              | d :: _ =>
                  let esc (k : nat) :=
                    do u <- read_universal_char k 0 (tl r);
                    if u =? 0 then keep
                    else do l <- convert_universal_chars f' (skipn k (tl r)); Ok (encode_utf8 u ++ l) in
                  if d =? 117 then esc 4%nat else if d =? 85 then esc 8%nat else keep
              end
            else keep
      end
  end.

(** Options: opt_cc1_asm_pp (tokenize.c:164, 222, 466). *)
Record lopt := mklopt { asm_pp : bool }.

(** tokenize.c:159-184; the length of the identifier at [p]. [first] is p == start. *)
Fixpoint read_ident (o : lopt) (f : nat) (first : bool) (p : list Z) : outcome nat :=
  match f with
  | O => UB
  | S f' =>
      match p with
      | [] => UB
      | c :: r =>
          let one := do n <- read_ident o f' false r; Ok (S n) in
          if c =? 36 then (if asm_pp o then Ok 0%nat else one)
          else if Isalnum c || (c =? 95) then one
          else if 128 <=? c then
            do q <- decode_utf8 p;
            if (if first then is_ident1 (fst q) else is_ident2 (fst q))
            then do n <- read_ident o f' false (skipn (snd q) p); Ok (snd q + n)%nat
            else Ok 0%nat
          else Ok 0%nat
      end
  end.

(** tokenize.c:195-241. *)
Definition read_punct (o : lopt) (p : list Z) : outcome nat :=
  match p with
  | c :: d :: r =>
      let b2n (b : bool) : nat := if b then 1%nat else 0%nat in
      let is_repeat := d =? c in
      let is_assign := d =? 61 in
      let p2 (k : Z -> nat) := match r with [] => UB | e :: _ => Ok (k e) end in
      if (c =? 45) && (d =? 62) then Ok 2%nat
      else if existsb (Z.eqb c) [45; 38; 43; 61; 124] then Ok (S (b2n (is_repeat || is_assign)))
      else if existsb (Z.eqb c) [60; 62] && is_repeat then p2 (fun e => S (S (b2n (e =? 61))))
      else if existsb (Z.eqb c) [60; 62; 33; 37; 42; 47; 94] then Ok (S (b2n is_assign))
      else if c =? 35 then Ok (S (b2n is_repeat))
      else if c =? 46 then (if is_repeat then p2 (fun e => if e =? c then 3%nat else 1%nat) else Ok 1%nat)
      else if c =? 36 then Ok (b2n (asm_pp o))
      else if existsb (Z.eqb c) [40; 41; 44; 58; 59; 63; 64; 91; 92; 93; 96; 123; 125; 126] then Ok 1%nat
      else Ok 0%nat
  | _ => UB
  end.

(** tokenize.c:302-307: hexadecimal digits of an escape, [c] as unsigned. *)
Fixpoint read_hex (c : Z) (p : list Z) : outcome (Z * nat) :=
  match p with
  | [] => UB
  | d :: r =>
      if Isxdigit d then do q <- read_hex ((c * 16 + from_hex d) mod two32) r; Ok (fst q, S (snd q))
      else Ok (c, 0%nat)
  end.

(** tokenize.c:289-340: value (an int) and number of bytes of the escape after the backslash. *)
Definition read_escaped_char (p : list Z) : outcome (Z * nat) :=
  match p with
  | [] => UB
  | c :: r =>
      if Inrange c 48 55 then
        match r with
        | [] => UB
        | d :: r2 =>
            if Inrange d 48 55 then
              match r2 with
              | [] => UB
              | e :: _ =>
                  if Inrange e 48 55 then Ok (((c - 48) * 8 + (d - 48)) * 8 + (e - 48), 3%nat)
                  else Ok ((c - 48) * 8 + (d - 48), 2%nat)
              end
            else Ok (c - 48, 1%nat)
        end
      else if c =? 120 then
        match r with
        | [] => UB
        | d :: _ => if Isxdigit d then do q <- read_hex 0 r; Ok (sext 32 (fst q), S (snd q)) else Abort
        end
      else
        Ok (if c =? 97 then 7 else if c =? 98 then 8 else if c =? 116 then 9
            else if c =? 110 then 10 else if c =? 118 then 11 else if c =? 102 then 12
            else if c =? 114 then 13 else if c =? 101 then 27 else sext 8 c, 1%nat)
  end.

(** tokenize.c:343-352: distance to the closing quote. *)
Fixpoint string_literal_end (p : list Z) : outcome nat :=
  match p with
  | [] => UB
  | c :: r =>
      if c =? 34 then Ok 0%nat
      else if (c =? 10) || (c =? 0) then Abort
      else if c =? 92 then
        match r with [] => UB | _ :: r2 => do n <- string_literal_end r2; Ok (S (S n)) end
      else do n <- string_literal_end r; Ok (S n)
  end.

(** Encoding of string literals: plain or u8, u, L or U. *)
Inductive enc := E8 | E16 | E32.

(** Elements stored for one source character outside an escape: tokenize.c:363, 390-399, 421. *)
Definition str_units (e : enc) (p : list Z) : outcome (list Z * nat) :=
  match e with
  | E8 => match p with [] => UB | c :: _ => Ok ([c], 1%nat) end
  | E16 => do q <- decode_utf8 p; Ok (utf16_units (fst q), snd q)
  | E32 => do q <- decode_utf8 p; Ok ([fst q], snd q)
  end.
Definition enc_bits (e : enc) : Z := match e with E8 => 8 | E16 => 16 | E32 => 32 end.

(** The loops at tokenize.c:359-364, 384-400, 417-422; [n] = end - p; [room] is the number of
    elements that still fit the buffer: storing beyond is UB. *)
Fixpoint read_units (e : enc) (f : nat) (n room : nat) (p : list Z) : outcome (list Z) :=
  match f with
  | O => UB
  | S f' =>
      match n with
      | O => Ok []
      | _ =>
          match p with
          | [] => UB
          | c :: r =>
              do u <- (if c =? 92
                       then do q <- read_escaped_char r; Ok ([fst q mod 2 ^ enc_bits e], S (snd q))
                       else str_units e p);
              if (length (fst u) <=? room)%nat then
                do l <- read_units e f' (n - snd u) (room - length (fst u)) (skipn (snd u) p);
                Ok (fst u ++ l)
              else UB
          end
      end
  end.

(** tokenize.c:354-370, 379-406, 412-428: elements (without the terminator) and the length of
    the token; [q] is the number of prefix bytes before the quote, [p] starts at the prefix. The
    buffer holds end - quote elements (end - start for UTF-16), one of them the terminator. *)
Definition read_string_literal (e : enc) (q : nat) (p : list Z) : outcome (list Z * nat) :=
  let body := skipn (S q) p in
  do n <- string_literal_end body;
  let room := match e with E16 => (n + q)%nat | _ => n end in
  do l <- read_units e (S n) n room body;
  Ok (l, (q + n + 2)%nat).

(** strchr(p, '\''), tokenize.c:441. *)
Fixpoint find_quote (p : list Z) : outcome nat :=
  match p with
  | [] => UB
  | c :: r => if c =? 39 then Ok 0%nat else if c =? 0 then Abort
              else do n <- find_quote r; Ok (S n)
  end.

(** tokenize.c:430-449: value (an int) and length; [q] prefix bytes before the quote. *)
Definition read_char_literal (q : nat) (p : list Z) : outcome (Z * nat) :=
  let body := skipn (S q) p in
  match body with
  | [] => UB
  | c :: r =>
      if c =? 0 then Abort
      else
        do u <- (if c =? 92 then do x <- read_escaped_char r; Ok (fst x, S (snd x))
                 else do x <- decode_utf8 body; Ok (sext 32 (fst x), snd x));
        do e <- find_quote (skipn (snd u) body);
        Ok (fst u, (q + snd u + e + 2)%nat)
  end.

(** tokenize.c:456-488: the number of further bytes of a pp-number. *)
Fixpoint pp_number (o : lopt) (f : nat) (p : list Z) : outcome nat :=
  match f with
  | O => UB
  | S f' =>
      match p with
      | [] => UB
      | c :: r =>
          let go (k : nat) := do n <- pp_number o f' (skipn k p); Ok (k + n)%nat in
          let rest :=
            if c =? 36 then (if asm_pp o then Ok 0%nat else go 1%nat)
            else if Isalnum c || (c =? 95) then go 1%nat
            else if 128 <=? c then
              do q <- decode_utf8 p;
              if is_ident2 (fst q) then go (snd q) else Ok 0%nat
            else Ok 0%nat in
          if c =? 46 then go 1%nat
          else if c =? 39 then
            match r with [] => UB | d :: _ => if Isalnum d then go 2%nat else rest end
          else if c =? 0 then Ok 0%nat
          else
            match r with
            | [] => UB
            | d :: _ =>
                if existsb (Z.eqb c) [101; 69; 112; 80] && existsb (Z.eqb d) [43; 45]
                then go 2%nat else rest
            end
      end
  end.

(** Tokens. Character constants are TK_INT_NUM with a value and type; strings carry their
    elements. *)
Inductive tkind :=
| TK_IDENT | TK_PUNCT | TK_PP_NUM | TK_EOF
| TK_STR (e : enc) (units : list Z)
| TK_CHAR (t : ty) (ival : Z).
Record token := mktok { kind : tkind; loc : nat; tlen : nat; at_bol : bool; has_space : bool }.

(** tokenize.c:675-676: while ( *p != '\n') p++ *)
Fixpoint to_newline (p : list Z) : outcome nat :=
  match p with
  | [] => UB
  | c :: r => if c =? 10 then Ok 0%nat else do n <- to_newline r; Ok (S n)
  end.
(** tokenize.c:683-687: distance from the byte after the opener to the closing star. *)
Fixpoint comment_end (p : list Z) : outcome nat :=
  match p with
  | [] => UB
  | c :: r =>
      if c =? 0 then Abort
      else
        do e <- (if c =? 42 then match r with [] => UB | d :: _ => Ok (d =? 47) end else Ok false);
        if e then Ok 0%nat else do n <- comment_end r; Ok (S n)
  end.
(** tokenize.c:667: the run of [c] after the first. *)
Fixpoint run_of (c : Z) (p : list Z) : outcome nat :=
  match p with
  | [] => UB
  | d :: r => if d =? c then do n <- run_of c r; Ok (S n) else Ok 0%nat
  end.

Definition nth2 (p : list Z) : Z := nth 1 p (-1).
Definition nth3 (p : list Z) : Z := nth 2 p (-1).

(** One step of tokenize.c:656-783 at a nonzero byte: skip [n] bytes of white space (and set
    the flags), or a token of [n] bytes. *)
Inductive step := Newline | Space (n : nat) | Tok (k : tkind) (n : nat).

Definition lex_step (o : lopt) (p : list Z) : outcome step :=
  match p with
  | c :: r =>
      if c =? 10 then Ok Newline
      else if existsb (Z.eqb c) [32; 9; 11; 12] then do n <- run_of c r; Ok (Space (S n))
      else if (c =? 47) && (nth2 p =? 47) then do n <- to_newline (skipn 2 p); Ok (Space (2 + n))
      else if (c =? 47) && (nth2 p =? 42) then do n <- comment_end (skipn 2 p); Ok (Space (2 + n + 2))
      else if Isdigit (if c =? 46 then nth2 p else c) then
        let k := if c =? 46 then 2%nat else 1%nat in
        do n <- pp_number o (length p) (skipn k p); Ok (Tok TK_PP_NUM (k + n))
      else
        do n <- read_punct o p;
        if negb (Nat.eqb n 0) then Ok (Tok TK_PUNCT n)
        else if c =? 34 then do q <- read_string_literal E8 0 p; Ok (Tok (TK_STR E8 (fst q)) (snd q))
        else if (c =? 117) && (nth2 p =? 56) && (nth3 p =? 34) then
          do q <- read_string_literal E8 2 p; Ok (Tok (TK_STR E8 (fst q)) (snd q))
        else if (c =? 117) && (nth2 p =? 34) then
          do q <- read_string_literal E16 1 p; Ok (Tok (TK_STR E16 (fst q)) (snd q))
        else if (c =? 76) && (nth2 p =? 34) then
          do q <- read_string_literal E32 1 p; Ok (Tok (TK_STR E32 (fst q)) (snd q))
        else if (c =? 85) && (nth2 p =? 34) then
          do q <- read_string_literal E32 1 p; Ok (Tok (TK_STR E32 (fst q)) (snd q))
        else if c =? 39 then
          do q <- read_char_literal 0 p; Ok (Tok (TK_CHAR ty_int (sext 8 (fst q))) (snd q))
        else if (c =? 117) && (nth2 p =? 39) then
          do q <- read_char_literal 1 p; Ok (Tok (TK_CHAR ty_ushort (fst q mod 65536)) (snd q))
        else if (c =? 76) && (nth2 p =? 39) then
          do q <- read_char_literal 1 p; Ok (Tok (TK_CHAR ty_int (fst q)) (snd q))
        else if (c =? 85) && (nth2 p =? 39) then
          do q <- read_char_literal 1 p; Ok (Tok (TK_CHAR ty_uint (fst q)) (snd q))
        else
          do m <- read_ident o (length p) true p;
          if Nat.eqb m 0 then Abort else Ok (Tok TK_IDENT m)
  | [] => UB
  end.

(** tokenize.c:646-792. *)
Fixpoint tokenize2 (o : lopt) (f : nat) (p : list Z) (off : nat) (bol sp : bool)
  : outcome (list token) :=
  match f with
  | O => UB
  | S f' =>
      match p with
      | [] => UB
      | c :: r =>
          if c =? 0 then Ok [mktok TK_EOF off 0 true sp]
          else
            do s <- lex_step o p;
            match s with
            | Newline => tokenize2 o f' r (S off) true false
            | Space n => tokenize2 o f' (skipn n p) (off + n) bol true
            | Tok k n =>
                do l <- tokenize2 o f' (skipn n p) (off + n) false false;
                Ok (mktok k off n bol sp :: l)
            end
      end
  end.
Definition tokenize (o : lopt) (p : list Z) : outcome (list token) :=
  tokenize2 o (length p) p 0 true false.

(** read_file, tokenize.c:817-825: the text as a C string ends at its first NUL. *)
Definition terminate (src : list Z) : list Z :=
  (if match src with [] => false | _ => last src 0 =? 10 end then src else src ++ [10]) ++ [0].
Fixpoint cstr (p : list Z) : list Z :=
  match p with [] => [] | c :: r => if c =? 0 then [0] else c :: cstr r end.

(** tokenize.c:947-966 up to the call of tokenize; memcmp needs three readable bytes. *)
Definition prepare (ucn : bool) (src : list Z) : outcome (list Z) :=
  let buf := terminate src in
  do p <- match buf with
          | a :: b :: c :: r => Ok (if (a =? 239) && (b =? 187) && (c =? 191) then r else buf)
          | _ => UB
          end;
  let p := remove_backslash_newline (canonicalize_newline (cstr p)) in
  if ucn then convert_universal_chars (S (length p)) p else Ok p.
