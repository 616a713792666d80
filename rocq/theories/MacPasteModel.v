(** The ## operator on tokens, with the tokenizer of LexModel. *)
From Coq Require Import Ascii String ZArith List Bool.
From Verif Require Import Base LexSpec LexModel PpSpec MacModel.
Import ListNotations.
Local Open Scope string_scope.
Local Open Scope list_scope.

(** paste, preprocess.c:669-682: the two spellings are tokenized as a C string. That the token is
    the only one is expressed by its length, which is the same as no operand is or contains white
    space. No token but a placemarker is empty, and placemarkers are not pasted; reading past the
    end of the buffer is the subject of C07 and only counted as a failure here. *)
Definition paste_lex (o : lopt) (a b : mtok) : outcome mtok :=
  if String.eqb (mtext a) "" || String.eqb (mtext b) "" then Abort
  else match tokenize o (cstr (bytes_of (mtext a ++ mtext b) ++ [0%Z])) with
       | Ok [t; _] =>
           if Nat.eqb (tlen t) (String.length (mtext a ++ mtext b)) then
             Ok (mkmtok (match LexModel.kind t with TK_IDENT => KId | TK_STR _ _ | TK_CHAR _ _ => KLit | _ => KOther end)
                        (mtext a ++ mtext b) (sp a) false)
           else Abort
       | _ => Abort
       end.
