(** Specification for macro expansion (C23 6.10.5), independent of the model's functions. *)
From Coq Require Import Ascii String ZArith List Bool.
From Verif Require Import Base PpSpec LexSpec.
Import ListNotations.
Local Open Scope string_scope.
Local Open Scope list_scope.

(** Depth of parentheses after a list of spellings, starting at depth [k]; None when a closing
    parenthesis has no partner. *)
Fixpoint walk (k : nat) (l : list string) : option nat :=
  match l with
  | [] => Some k
  | s :: r =>
      if String.eqb s "(" then walk (S k) r
      else if String.eqb s ")" then match k with O => None | S k' => walk k' r end
      else walk k r
  end.
Definition balanced_parens (l : list string) : Prop := walk 0 l = Some 0%nat.

(** Object-like replacement: a token is a spelling and whether it is an identifier that is no
    longer available for replacement. [H]: macros being replaced; [n] bounds the nesting. *)
Fixpoint replace (tbl : list (string * list (string * bool))) (n : nat) (H : list string) (l : list (string * bool)) : list (string * bool) :=
  match n with
  | O => l
  | S n' =>
      flat_map (fun t : string * bool =>
        if snd t then [t]
        else match lookup (fst t) tbl with
             | None => [t]
             | Some body => if existsb (String.eqb (fst t)) H then [(fst t, true)] else replace tbl n' (fst t :: H) body
             end) l
  end.

(** Argument substitution (C23 6.10.5.2-6.10.5.4) for any type of tokens. A replacement list is a
    sequence of operands, each a token, a parameter or # applied to a parameter, where some
    neighbours are joined by ##. *)
Inductive item (T : Type) := Plain (t : T) | Param (t : T) (i : nat) | Str (h t : T) (i : nat).
Arguments Plain {T}. Arguments Param {T}. Arguments Str {T}.
Section Substitution.
Variable T : Type.
Variable paste : T -> T -> outcome T.
Variable str : T -> list T -> T.          (* # applied to the tokens of an argument *)
Variable like : T -> T -> T.              (* [like t u]: t with the white space of u before it *)
Variables raw full : nat -> list T.       (* an argument before and after complete expansion *)
Definition first_like (l : list T) (u : T) : list T := match l with [] => [] | t :: r => like t u :: r end.
(** One of the operands joined by ##; an empty list is a placemarker. *)
Definition joined (x : item T) : list T :=
  match x with Plain t => [t] | Param _ i => raw i | Str h _ i => [str h (raw i)] end.
Definition head_joined (x : item T) : list T :=
  match x with Param t i => first_like (raw i) t | _ => joined x end.
Definition alone (x : item T) : list T :=
  match x with Plain t => [t] | Param t i => first_like (full i) t | Str h _ i => [str h (raw i)] end.
(** ## pastes the last token of what precedes it and the first of what follows. *)
Definition join2 (a b : list T) : outcome (list T) :=
  match b with
  | [] => Ok a
  | x :: b' =>
      match rev a with
      | [] => Ok b
      | y :: a' => do p <- paste y x; Ok (rev a' ++ p :: b')
      end
  end.
Fixpoint join_all (a : list T) (l : list (item T)) : outcome (list T) :=
  match l with [] => Ok a | x :: r => do b <- join2 a (joined x); join_all b r end.
Definition chain_value (c : item T * list (item T)) : outcome (list T) :=
  match snd c with [] => Ok (alone (fst c)) | l => join_all (head_joined (fst c)) l end.
Fixpoint list_value (l : list (item T * list (item T))) : outcome (list T) :=
  match l with [] => Ok [] | c :: r => do a <- chain_value c; do b <- list_value r; Ok (a ++ b) end.
End Substitution.
(** The spelling of a replacement list, with [hh] for ##. *)
Definition item_toks {T} (x : item T) : list T := match x with Plain t => [t] | Param t _ => [t] | Str h t _ => [h; t] end.
Definition chain_toks {T} (hh : T) (c : item T * list (item T)) : list T :=
  item_toks (fst c) ++ flat_map (fun x => hh :: item_toks x) (snd c).
(** Arguments: separated by commas; a comma inside an argument is in parentheses. *)
Fixpoint no_top_comma (k : nat) (l : list string) : bool :=
  match l with
  | [] => true
  | s :: r =>
      if String.eqb s "(" then no_top_comma (S k) r
      else if String.eqb s ")" then no_top_comma (pred k) r
      else (negb (String.eqb s ",") || negb (Nat.eqb k 0)) && no_top_comma k r
  end.
Fixpoint separated {T} (cm : T) (l : list (list T)) : list T :=
  match l with [] => [] | [a] => a | a :: r => a ++ cm :: separated cm r end.

(** The spelling of a sequence of tokens, each with whether white space precedes it: one space for
    white space between two tokens (C23 6.10.5.3). *)
Definition spelling (l : list (bool * string)) : list Z :=
  match l with
  | [] => []
  | (_, s) :: r => bytes_of s ++ flat_map (fun t : bool * string => (if fst t then [32%Z] else []) ++ bytes_of (snd t)) r
  end.
