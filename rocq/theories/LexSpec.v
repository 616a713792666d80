(** Specification of the lexical phases, independent of the model. Texts are lists of bytes. *)
From Coq Require Import Ascii String ZArith List Bool.
From Verif Require Import UnicodeTables UnicodeSpec.
Import ListNotations.
Local Open Scope Z_scope.

Definition bytes_of (s : string) : list Z :=
  map (fun c => Z.of_nat (nat_of_ascii c)) (list_ascii_of_string s).

(** *** Lines *)
(** Physical lines: separated by LF, CR or CR LF; the last one is not terminated. *)
Fixpoint phys_lines (s : list Z) : list (list Z) :=
  match s with
  | [] => [[]]
  | c :: r =>
      if c =? 10 then [] :: phys_lines r
      else if c =? 13 then
        match r with
        | d :: r' => if d =? 10 then [] :: phys_lines r' else [] :: phys_lines r
        | [] => [] :: phys_lines r
        end
      else match phys_lines r with
           | l :: ls => (c :: l) :: ls
           | [] => [[c]]
           end
  end.
Definition ends_bs (l : list Z) : bool := last l 0 =? 92.

(** Lines after splicing: a line ending in a backslash is continued on the next one. A logical
    line made of k physical lines is followed by k newlines; an unterminated one by none. *)
Fixpoint logical_text (k : nat) (ls : list (list Z)) : list Z :=
  match ls with
  | [] => []
  | [l] => l
  | l :: r =>
      if ends_bs l then removelast l ++ logical_text (S k) r
      else l ++ repeat 10 (S k) ++ logical_text 0 r
  end.
(** Each character with the physical line on which its logical line begins. *)
Fixpoint origins (start cur : Z) (ls : list (list Z)) : list (Z * Z) :=
  match ls with
  | [] => []
  | [l] => map (fun c => (c, start)) l
  | l :: r =>
      if ends_bs l then map (fun c => (c, start)) (removelast l) ++ origins start (cur + 1) r
      else map (fun c => (c, start)) l ++ origins (cur + 1) (cur + 1) r
  end.
(** The same with the line the character itself is on. *)
Fixpoint own_lines (cur : Z) (ls : list (list Z)) : list (Z * Z) :=
  match ls with
  | [] => []
  | [l] => map (fun c => (c, cur)) l
  | l :: r => map (fun c => (c, cur)) (if ends_bs l then removelast l else l) ++ own_lines (cur + 1) r
  end.
(** Characters of a text other than newlines, numbered by counting newlines. *)
Fixpoint numbered (n : Z) (p : list Z) : list (Z * Z) :=
  match p with
  | [] => []
  | c :: r => if c =? 10 then numbered (n + 1) r else (c, n) :: numbered n r
  end.
Definition line_at (p : list Z) (i : nat) : Z := 1 + Z.of_nat (count_occ Z.eq_dec (firstn i p) 10).

(** *** Punctuators (C11 6.4.6) without the digraphs *)
Definition puncts : list (list Z) :=
  map bytes_of ["["; "]"; "("; ")"; "{"; "}"; "."; "->"; "++"; "--"; "&"; "*"; "+"; "-"; "~"; "!";
    "/"; "%"; "<<"; ">>"; "<"; ">"; "<="; ">="; "=="; "!="; "^"; "|"; "&&"; "||"; "?"; ":"; ";";
    "..."; "="; "*="; "/="; "%="; "+="; "-="; "<<="; ">>="; "&="; "^="; "|="; ","; "#"; "##"]%string.
(** Characters that are not punctuators in C but are tokens of their own. *)
Definition stray : list (list Z) := map bytes_of ["@"; "\"; "`"]%string.
Definition digraphs : list (list Z) := map bytes_of ["<:"; ":>"; "<%"; "%>"; "%:"; "%:%:"]%string.

Fixpoint is_prefix (a p : list Z) : bool :=
  match a, p with
  | [], _ => true
  | x :: a', y :: p' => (y =? x) && is_prefix a' p'
  | _, _ => false
  end.
(** [n] is the length of the longest member of [l] that starts [p]. *)
Definition longest_match (l : list (list Z)) (p : list Z) (n : nat) : Prop :=
  (exists a, In a l /\ is_prefix a p = true /\ length a = n) /\
  forall a, In a l -> is_prefix a p = true -> (length a <= n)%nat.
Definition no_match (l : list (list Z)) (p : list Z) : Prop :=
  forall a, In a l -> is_prefix a p = false.

(** *** Tokens cover the text *)
Definition is_blank (c : Z) : bool := existsb (Z.eqb c) [32; 9; 11; 12].
Inductive gap : bool -> bool -> list Z -> bool -> bool -> Prop :=
(** [gap bol sp g bol' sp']: [g] is white space, and turns the flags (bol, sp) into (bol', sp'). *)
| gap_nil : forall b s, gap b s [] b s
| gap_newline : forall b s g b' s', gap true false g b' s' -> gap b s (10 :: g) b' s'
| gap_blank : forall b s c g b' s', is_blank c = true -> gap b true g b' s' -> gap b s (c :: g) b' s'
| gap_line : forall b s t g b' s', ~ In 10 t -> gap b true (10 :: g) b' s' ->
    gap b s (47 :: 47 :: t ++ 10 :: g) b' s'
| gap_block : forall b s t g b' s', (forall u v, t <> u ++ 42 :: 47 :: v) ->
    gap b true g b' s' -> gap b s (47 :: 42 :: t ++ 42 :: 47 :: g) b' s'.

(** *** The lexical grammar *)
(** Identifier characters: letters, digits, the underscore; the dollar sign unless
    preprocessing assembly; beyond ASCII the ranges of the standard, as checked by C47. *)
Definition digit (c : Z) : bool := (48 <=? c) && (c <=? 57).
Definition octal (c : Z) : bool := (48 <=? c) && (c <=? 55).
Definition letter (c : Z) : bool := ((65 <=? c) && (c <=? 90)) || ((97 <=? c) && (c <=? 122)).
Definition hexdigit (c : Z) : bool := digit c || ((65 <=? c) && (c <=? 70)) || ((97 <=? c) && (c <=? 102)).
Definition hexval (c : Z) : Z := if digit c then c - 48 else if c <=? 70 then c - 55 else c - 87.

(** Multi-byte characters as they are accepted: UTF-8 without a check for overlong forms,
    surrogates or the range, and with lead bytes 248-255 taken as 240-247. *)
Definition cont (b : Z) : Prop := 128 <= b < 192.
Inductive wide_char : list Z -> Z -> Prop :=
| wide2 : forall a b, 192 <= a < 224 -> cont b -> wide_char [a; b] ((a - 192) * 64 + (b - 128))
| wide3 : forall a b c, 224 <= a < 240 -> cont b -> cont c ->
    wide_char [a; b; c] (((a - 224) * 64 + (b - 128)) * 64 + (c - 128))
| wide4 : forall a b c d, 240 <= a -> cont b -> cont c -> cont d ->
    wide_char [a; b; c; d] ((((a - 240) mod 8 * 64 + (b - 128)) * 64 + (c - 128)) * 64 + (d - 128)).
Inductive src_char : list Z -> Z -> Prop :=
| src_ascii : forall c, c < 128 -> src_char [c] c
| src_wide : forall ch u, wide_char ch u -> src_char ch u.

Inductive id_char (asm first : bool) : list Z -> nat -> Prop :=
(** [id_char asm first p n]: [p] starts with an identifier character of [n] bytes. *)
| idc_ascii : forall c r, letter c || digit c || (c =? 95) || ((c =? 36) && negb asm) = true ->
    id_char asm first (c :: r) 1
| idc_wide : forall ch u r, wide_char ch u -> in_table u ident1_table \/ (first = false /\ in_table u ident2_table) ->
    id_char asm first (ch ++ r) (length ch).

Inductive id_chars (asm : bool) : bool -> list Z -> nat -> Prop :=
(** the longest sequence of identifier characters at the start of a text *)
| ids_stop : forall first p, (forall n, ~ id_char asm first p n) -> id_chars asm first p 0
| ids_more : forall first p k n, id_char asm first p k -> id_chars asm false (skipn k p) n ->
    id_chars asm first p (k + n).

(** pp-number (C23 6.4.8) after its first digit. *)
Inductive num_piece (asm : bool) : list Z -> nat -> Prop :=
| num_dot : forall r, num_piece asm (46 :: r) 1
| num_sep : forall d r, letter d || digit d = true -> num_piece asm (39 :: d :: r) 2
| num_exp : forall c d r, In c [101; 69; 112; 80] -> In d [43; 45] -> num_piece asm (c :: d :: r) 2
| num_id : forall c r n, id_char asm false (c :: r) n ->
    ~ (In c [101; 69; 112; 80] /\ In (hd 0 r) [43; 45]) -> num_piece asm (c :: r) n.
Inductive num_rest (asm : bool) : list Z -> nat -> Prop :=
| nums_stop : forall p, (forall n, ~ num_piece asm p n) -> num_rest asm p 0
| nums_more : forall p k n, num_piece asm p k -> num_rest asm (skipn k p) n -> num_rest asm p (k + n).

(** Characters of a string or character constant. *)
Definition simple_escapes : list (Z * Z) :=
  [(97, 7); (98, 8); (116, 9); (110, 10); (118, 11); (102, 12); (114, 13); (101, 27);
   (39, 39); (34, 34); (63, 63); (92, 92)].
(** The value of a backslash followed by [c]: as listed, otherwise that of [c] as a char. *)
Definition escape_value (c : Z) : Z :=
  match find (fun e => fst e =? c) simple_escapes with
  | Some e => snd e
  | None => if c <? 128 then c else c - 256
  end.
Definition value_of (base : Z) (ds : list Z) : Z := fold_left (fun v d => v * base + hexval d) ds 0.
Definition stops (f : Z -> bool) (r : list Z) : Prop := match r with [] => True | c :: _ => f c = false end.

Inductive escape : list Z -> Z -> list Z -> Prop :=
(** [escape p v r]: what follows the backslash in [p] denotes [v] and leaves [r]. *)
| esc_octal : forall ds r, forallb octal ds = true -> (1 <= length ds <= 3)%nat ->
    (length ds = 3%nat \/ stops octal r) -> escape (ds ++ r) (value_of 8 ds) r
| esc_hex : forall ds r, forallb hexdigit ds = true -> ds <> [] -> stops hexdigit r ->
    escape (120 :: ds ++ r) (value_of 16 ds) r
| esc_simple : forall c r, octal c = false -> c <> 120 -> escape (c :: r) (escape_value c) r.

Inductive strenc := S8 | S16 | S32.
Definition strbits (e : strenc) : Z := match e with S8 => 8 | S16 => 16 | S32 => 32 end.
(** One character that is not an escape: its bytes themselves in a plain string, otherwise its
    code point in the encoding of the string. *)
Definition plain_units (e : strenc) (ch : list Z) (us : list Z) : Prop :=
  match e with
  | S8 => exists c, ch = [c] /\ us = [c]
  | S16 => exists u, src_char ch u /\
             us = if u <? 65536 then [u] else [55296 + (u - 65536) / 1024 mod 1024; 56320 + (u - 65536) mod 1024]
  | S32 => exists u, src_char ch u /\ us = [u]
  end.
Inductive elements (e : strenc) : list Z -> list Z -> Prop :=
| el_nil : elements e [] []
| el_escape : forall p v r us, escape p v r -> elements e r us ->
    elements e (92 :: p) (v mod 2 ^ strbits e :: us)
| el_plain : forall c ch r us us', c <> 92 -> c <> 34 -> c <> 10 -> plain_units e (c :: ch) us -> elements e r us' ->
    elements e (c :: ch ++ r) (us ++ us').

(** Tokens. *)
Definition signed_of (n v : Z) : Z := (v + 2 ^ (n - 1)) mod 2 ^ n - 2 ^ (n - 1).
Inductive chartype := CInt | CU16 | CU32.
Inductive lexeme := LName | LPunct | LNumber | LString (e : strenc) (us : list Z) | LChar (t : chartype) (v : Z) | LEnd.
Inductive strprefix : list Z -> strenc -> Prop :=
| pre_none : strprefix [] S8
| pre_u8 : strprefix [117; 56] S8
| pre_u : strprefix [117] S16
| pre_L : strprefix [76] S32
| pre_U : strprefix [85] S32.
Inductive charprefix : list Z -> chartype -> (Z -> Z) -> Prop :=
(** prefix, type of the constant, and its value as a function of the character's value *)
| chr_none : charprefix [] CInt (signed_of 8)
| chr_u : charprefix [117] CU16 (fun v => v mod 65536)
| chr_L : charprefix [76] CInt (signed_of 32)
| chr_U : charprefix [85] CU32 (signed_of 32).

Inductive char_at : list Z -> Z -> list Z -> Prop :=
(** [char_at p v r]: [p] starts with a character or escape of value [v] and continues with [r]. *)
| ch_escape : forall p v r, escape p v r -> char_at (92 :: p) v r
| ch_plain : forall c ch u r, c <> 92 -> src_char (c :: ch) u -> char_at (c :: ch ++ r) u r.

Definition comment_start (p : list Z) : Prop := exists r, p = 47 :: 47 :: r \/ p = 47 :: 42 :: r.
Definition number_start (p : list Z) : Prop :=
  match p with
  | [] => False
  | c :: r => digit c = true \/ (c = 46 /\ digit (hd 0 r) = true)
  end.

Inductive lexes (asm : bool) : list Z -> lexeme -> nat -> Prop :=
(** [lexes asm p k n]: the first token of [p] is of kind [k] and [n] bytes long. *)
| lex_number : forall c r n, digit c = true -> num_rest asm r n -> lexes asm (c :: r) LNumber (S n)
| lex_dot_number : forall c r n, digit c = true -> num_rest asm r n -> lexes asm (46 :: c :: r) LNumber (S (S n))
| lex_punct : forall p n, ~ comment_start p -> ~ number_start p ->
    longest_match (puncts ++ stray ++ (if asm then [[36]] else [])) p n -> lexes asm p LPunct n
| lex_string : forall pre e body us r, strprefix pre e -> elements e body us ->
    lexes asm (pre ++ 34 :: body ++ 34 :: r) (LString e us) (length pre + length body + 2)
| lex_char : forall pre t g v one junk r, charprefix pre t g -> hd 0 one <> 0 ->
    char_at (one ++ junk ++ 39 :: r) v (junk ++ 39 :: r) -> ~ In 39 junk ->
    lexes asm (pre ++ 39 :: one ++ junk ++ 39 :: r) (LChar t (g v)) (length pre + length one + length junk + 2)
| lex_name : forall p n, ~ number_start p -> (0 < n)%nat -> id_chars asm true p n ->
    (forall pre q r, strprefix pre q -> p <> pre ++ 34 :: r) ->
    (forall pre q g r, charprefix pre q g -> p <> pre ++ 39 :: r) -> lexes asm p LName n.

(** A token: kind, offset, length, whether it is first on its line and whether white space
    precedes it on its line. The text ends with a NUL. *)
Definition tok := (lexeme * nat * nat * bool * bool)%type.
Inductive tokens (asm : bool) : nat -> bool -> bool -> list Z -> list tok -> Prop :=
| tok_end : forall off b s g b' s', gap b s g b' s' -> tokens asm off b s (g ++ [0]) [(LEnd, off + length g, 0, true, s')]%nat
| tok_next : forall off b s g b' s' k w r l, gap b s g b' s' -> w <> [] -> lexes asm (w ++ r) k (length w) ->
    tokens asm (off + length g + length w) false false r l ->
    tokens asm off b s (g ++ w ++ r) ((k, off + length g, length w, b', s')%nat :: l).
