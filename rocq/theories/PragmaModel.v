(** Model of pragma_macro, preprocess.c 1551-1588, after its arguments are read. *)
From Coq Require Import ZArith List Bool.
From Verif Require Import Base LexModel PrintSpec PragmaSpec.
Import ListNotations.
Local Open Scope Z_scope.

(** memcpy into a buffer; writing outside is undefined. *)
Definition memcpy (buf : list Z) (ofs : nat) (src : list Z) : outcome (list Z) :=
  if (ofs + length src <=? length buf)%nat then Ok (firstn ofs buf ++ src ++ skipn (ofs + length src) buf) else UB.

(** preprocess.c:1569-1570 and 1580-1582; [lit] is the spelling of the literal, loc and len of the token. *)
Definition pragma_buf (lit : list Z) : outcome (list Z) :=
  if (length lit <? 2)%nat then Abort
  else
    do b1 <- memcpy (repeat 0 (length lit + 7)) 0 pragma_word;
    memcpy b1 8 (firstn (length lit - 2) (skipn 1 lit)).

(** preprocess.c:1584-1585: the tokens put in place of the operator. *)
Definition pragma_macro (o : lopt) (lit : list Z) : outcome (list seen) :=
  do b <- pragma_buf lit;
  do l <- tokenize o (cstr b);
  Ok (map (see (cstr b)) (removelast l)).
