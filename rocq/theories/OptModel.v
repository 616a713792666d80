(** Model of startswith, take_arg, take_arg_s and comma_arg, main.c 77-113. Arguments are the bytes before the NUL;
    argv is the list before its null pointer, and [i] is an index in it. *)
From Coq Require Import ZArith List Bool.
From Verif Require Import Base CliModel DrvModel.
Import ListNotations.
Local Open Scope Z_scope.

(** main.c:77-84: the rest if it starts with str. *)
Fixpoint startswith (arg str : list Z) : option (list Z) :=
  match str, arg with
  | [], _ => Some arg
  | y :: s, x :: a => if x =? y then startswith a s else None
  | _ :: _, [] => None
  end.

(** main.c:86-96: the argument and the new index; Ok None is false, reading past the null pointer undefined. *)
Definition take_arg (argv : list (list Z)) (i : nat) (opt : list Z) : outcome (option (list Z * nat)) :=
  match nth_error argv i with
  | None => UB
  | Some a =>
      if negb (bytes_eq a opt) then Ok None
      else match nth_error argv (S i) with
           | Some v => Ok (Some (v, S i))
           | None => Abort
           end
  end.

(** main.c:98-100 *)
Definition take_arg_s (argv : list (list Z)) (i : nat) (str : list Z) : outcome (option (list Z * nat)) :=
  do r <- take_arg argv i str;
  match r with
  | Some x => Ok (Some x)
  | None =>
      match nth_error argv i with
      | None => UB
      | Some a => match startswith a str with Some p => Ok (Some (p, i)) | None => Ok None end
      end
  end.

(** strtok with the delimiter comma (7.26.5.9): delimiters are skipped, then the token goes to the next delimiter, which
    is consumed, or to the end. None at the end of the text. *)
Fixpoint skip_commas (s : list Z) : list Z :=
  match s with c :: r => if c =? 44 then skip_commas r else s | [] => [] end.
Fixpoint to_comma (s : list Z) : list Z * list Z :=
  match s with
  | [] => ([], [])
  | c :: r => if c =? 44 then ([], r) else let q := to_comma r in (c :: fst q, snd q)
  end.
Definition strtok (s : list Z) : option (list Z * list Z) :=
  match skip_commas s with [] => None | s' => Some (to_comma s') end.

(** main.c:105-108; fuel: one round for each byte is enough. *)
Fixpoint comma_loop (fuel : nat) (s : list Z) : outcome (list (list Z)) :=
  match strtok s with
  | None => Ok []
  | Some (a, r) =>
      match fuel with
      | O => UB
      | S f => do l <- comma_loop f r; Ok (a :: l)
      end
  end.
(** main.c:102-113: what is pushed; None is false. *)
Definition comma_arg (arg str : list Z) : outcome (option (list (list Z))) :=
  match startswith arg str with
  | Some p => do l <- comma_loop (length p) p; Ok (Some l)
  | None => Ok None
  end.
