(** Model of print_tokens, main.c:640-669, the output of -E. Bytes are integers as in LexModel.
    A token is what the loop reads of it: the bytes tok->loc[0..len), the two flags, and of its
    origin the file (the number stands for the pointer), the name of the file and the line.
    Opening, flushing and closing the stream are left out. *)
From Coq Require Import ZArith List Bool.
From Verif Require Import Base LexModel.
Import ListNotations.
Local Open Scope Z_scope.

(** [pkind] is not read by print_tokens. *)
Record ptok := mkptok { pkind : tkind; ptext : list Z; pbol : bool; psp : bool; pfile : nat; pname : list Z; pline : Z }.

(** The digits fprintf writes for %d of a nonnegative int. *)
Fixpoint digits (f : nat) (n : Z) : list Z :=
  match f with
  | O => []
  | S f' => (if n <? 10 then [] else digits f' (n / 10)) ++ [48 + n mod 10]
  end.
Definition print_int (n : Z) : list Z := if n <? 0 then 45 :: digits 10 (- n) else digits 10 n.

(** main.c:651-653; the bytes of <stdin>. *)
Definition shown_name (name : list Z) : list Z :=
  match name with
  | [45] => [60; 115; 116; 100; 105; 110; 62]
  | _ => name
  end.

(** main.c:649: whether a marker is written, [mark] = markerfile. *)
Definition marked (P : bool) (mark : option nat) (t : ptok) : bool :=
  negb P && match mark with Some m => negb (Nat.eqb m (pfile t)) | None => true end.

(** main.c:654. *)
Definition marker (t : ptok) : list Z :=
  [10; 35; 32] ++ print_int (pline t) ++ [32; 34] ++ shown_name (pname t) ++ [34; 10].

(** The loop, main.c:647-664, and the newline after it; [first] is line == 1; [l] are the tokens
    before TK_EOF. *)
Fixpoint print_loop (P first : bool) (mark : option nat) (l : list ptok) : list Z :=
  match l with
  | [] => [10]
  | t :: r =>
      (if marked P mark t then marker t else []) ++
      (if negb first && pbol t then [10] else []) ++
      (if psp t && negb (pbol t) then [32] else []) ++
      ptext t ++
      print_loop P false (if marked P mark t then Some (pfile t) else mark) r
  end.
Definition print_tokens (P : bool) (l : list ptok) : list Z := print_loop P true None l.

(** What print_tokens sees of the tokens of a file that go through the preprocessor unchanged:
    [buf] is the text of the file with its terminator, [ln] gives the lines. *)
Definition of_source (buf : list Z) (fid : nat) (name : list Z) (ln : token -> Z) (t : token) : ptok :=
  mkptok (kind t) (firstn (tlen t) (skipn (loc t) buf)) (at_bol t) (has_space t) fid name (ln t).
