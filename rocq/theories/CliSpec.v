(** What the option -D means: the argument is the rest of a #define directive in which the first equals
    sign is replaced by a blank, and a name alone is defined as 1. *)
From Coq Require Import ZArith List Bool.
From Verif Require Import Base LexSpec LexModel PrintSpec.
Import ListNotations.
Local Open Scope Z_scope.

(** The text after "#define ". *)
Fixpoint blank_eq (s : list Z) : option (list Z) :=
  match s with
  | [] => None
  | c :: r => if c =? 61 then Some (32 :: r) else match blank_eq r with Some r' => Some (c :: r') | None => None end
  end.
Definition directive_text (s : list Z) : list Z :=
  match blank_eq s with Some t => t | None => s ++ [32; 49] end.

(** Kind, spelling, white space before. *)
Definition body_tok := (tkind * list Z * bool)%type.
Definition in_body (x : seen) : body_tok := match x with (k, s, _, sp) => (k, s, sp) end.
(** [text] begins with the name and goes on with the tokens of [body]. *)
Definition says_define (o : lopt) (text name : list Z) (body : list body_tok) : Prop :=
  exists x l, reads o text (x :: l) /\ in_body x = (TK_IDENT, name, false) /\ map in_body l = body.

(** Identifiers of letters, digits and underscores. *)
Definition word_char (c : Z) : bool := letter c || digit c || (c =? 95).
Definition plain_word (s : list Z) : Prop :=
  forallb word_char s = true /\ exists c r, s = c :: r /\ digit c = false.
