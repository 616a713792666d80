(** Model of dependency output: quote_makefile (main.c 190-216) and print_dependencies
    (main.c 684-724). Simplifications: names are lists of bytes; the output file is its text; the
    default target arrives as the object file's name (replace_extn is not modelled). The buffer
    of quote_makefile has its size, writing past it is undefined. *)
From Coq Require Import ZArith List Bool.
From Verif Require Import Base MakeSpec.
Import ListNotations.
Local Open Scope Z_scope.

Definition put (cap : nat) (buf : list Z) (c : Z) : outcome (list Z) :=
  if Nat.ltb (length buf) cap then Ok (buf ++ [c]) else UB.

(** main.c:205-206: [before] is the part of the string before the blank, last byte first. *)
Fixpoint put_slashes (cap : nat) (before buf : list Z) : outcome (list Z) :=
  match before with
  | c :: r => if c =? BS then (do b <- put cap buf BS; put_slashes cap r b) else Ok buf
  | [] => Ok buf
  end.
Fixpoint quote_loop (cap : nat) (before s buf : list Z) : outcome (list Z) :=
  match s with
  | [] => Ok buf
  | c :: r =>
      do b <-
        (if c =? 36 then (do b1 <- put cap buf 36; put cap b1 36)
         else if c =? 35 then (do b1 <- put cap buf BS; put cap b1 35)
         else if (c =? 32) || (c =? 9) then
           (do b1 <- put_slashes cap before buf; do b2 <- put cap b1 BS; put cap b2 c)
         else put cap buf c);
      quote_loop cap (c :: before) r b
  end.
(** The buffer is zeroed: the result ends at its first unwritten byte, which must exist. *)
Definition quote_makefile (s : list Z) : outcome (list Z) :=
  let cap := (length s * 2 + 1)%nat in
  do b <- quote_loop cap [] s [];
  if Nat.ltb (length b) cap then Ok b else UB.

(** main.c:703-708, 712-718: the files printed. *)
Definition printed (MM : bool) (f : dfile) : bool := negb ((MM && syshdr f) || negb (is_input f)).
Fixpoint prereqs (MM : bool) (l : list dfile) : list Z :=
  match l with
  | [] => []
  | f :: r => (if printed MM f then [32; BS; NL; 32; 32] ++ dname f else []) ++ prereqs MM r
  end.
Fixpoint phony (MM : bool) (l : list dfile) : outcome (list Z) :=
  match l with
  | [] => Ok []
  | f :: r =>
      do t <- if printed MM f then (do q <- quote_makefile (dname f); Ok (q ++ [58; NL; NL])) else Ok [];
      do u <- phony MM r;
      Ok (t ++ u)
  end.
(** main.c:695-720. [target] is opt_MT as given, or else the name of the object file. *)
Inductive dtarget := GivenMT (text : list Z) | Object (name : list Z).
Definition print_dependencies (t : dtarget) (MM MP : bool) (l : list dfile) : outcome (list Z) :=
  do h <- match t with GivenMT x => Ok x | Object n => quote_makefile n end;
  do p <- if MP then phony MM (tl l) else Ok [];
  Ok (h ++ [58] ++ prereqs MM l ++ [NL; NL] ++ p).
