(** Model of define_macro_cli, preprocess.c 1450-1472, with read_macro_name, 454-467, for object-like macros. *)
From Coq Require Import ZArith List Bool.
From Verif Require Import Base LexModel PrintSpec CliSpec.
Import ListNotations.
Local Open Scope Z_scope.

(** tokenize.c: equal, by the spelling. *)
Fixpoint bytes_eq (a b : list Z) : bool :=
  match a, b with
  | [], [] => true
  | x :: a', y :: b' => (x =? y) && bytes_eq a' b'
  | _, _ => false
  end.
Definition is_text (buf : list Z) (t : token) (s : list Z) : bool := bytes_eq (spelling buf t) s.

(** preprocess.c:1460 on the next token. *)
Definition set_space (l : list token) : list token :=
  match l with [] => [] | t :: r => mktok (kind t) (loc t) (tlen t) (at_bol t) true :: r end.

(** preprocess.c:1466-1467; make_token, 303-317, gives a number. *)
Definition one : body_tok := (TK_PP_NUM, [49], true).

(** preprocess.c:1454-1470; the last token is TK_EOF. [f] is the number of tokens. *)
Fixpoint body_loop (f : nat) (buf : list Z) (has_eq : bool) (l : list token) : outcome (list body_tok) :=
  match f with
  | O => UB
  | S f' =>
      match l with
      | [] => UB
      | [_] => Ok (if has_eq then [] else [one])
      | t :: r =>
          if negb has_eq && is_text buf t [61] then body_loop f' buf true (set_space r)
          else do b <- body_loop f' buf has_eq r; Ok (in_body (see buf t) :: b)
      end
  end.

(** preprocess.c:454-467 and 1450-1472. None: a function-like macro (read_macro_params is not modelled here). *)
Definition define_macro_cli (o : lopt) (str : list Z) : outcome (option (list Z * list body_tok)) :=
  let buf := str ++ [0] in
  do l <- tokenize o buf;
  match l with
  | [] => UB
  | t :: r =>
      match kind t with
      | TK_IDENT =>
          match r with
          | [] => UB
          | u :: _ =>
              if negb (has_space u) && is_text buf u [40] then Ok None
              else do b <- body_loop (length r) buf false r; Ok (Some (spelling buf t, b))
          end
      | _ => Abort
      end
  end.
