(** How make reads rules without recipes: words, with the quoting of blanks, # and : by
    backslashes and of $ by $$, backslash-newline between words, one rule per line. *)
From Coq Require Import ZArith List Bool Arith.
Import ListNotations.
Local Open Scope Z_scope.

Definition BS : Z := 92.
Definition NL : Z := 10.
Definition blank (c : Z) : bool := (c =? 32) || (c =? 9).
Definition special (c : Z) : bool := blank c || (c =? 35) || (c =? 58).
Definition bss (n : nat) : list Z := repeat BS n.
Definition prepend (p : list Z) (o : option (list Z * list Z)) : option (list Z * list Z) :=
  match o with Some (w, r) => Some (p ++ w, r) | None => None end.

(** The word at the start of the text and what follows it; [n] backslashes were just read.
    Backslashes count only before special characters: a special character after an odd number of
    them is part of the word. None: a variable reference. *)
Fixpoint word (n : nat) (s : list Z) : option (list Z * list Z) :=
  match s with
  | [] => Some (bss n, [])
  | c :: r =>
      if c =? BS then word (S n) r
      else if special c then
        if Nat.odd n then prepend (bss (n / 2) ++ [c]) (word 0 r) else Some (bss (n / 2), s)
      else if c =? NL then Some (bss n, s)
      else if c =? 36 then
        match r with
        | d :: r' => if d =? 36 then prepend (bss n ++ [36]) (word 0 r') else None
        | [] => None
        end
      else prepend (bss n ++ [c]) (word 0 r)
  end.

(** Blanks and line continuations. *)
Fixpoint skip_blanks (s : list Z) : list Z :=
  match s with
  | c :: r =>
      if blank c then skip_blanks r
      else if c =? BS then match r with d :: r' => if d =? NL then skip_blanks r' else s | [] => s end
      else s
  | [] => []
  end.
(** The prerequisites up to the end of the line. *)
Fixpoint words (fuel : nat) (s : list Z) : option (list (list Z) * list Z) :=
  match fuel with
  | O => None
  | S f =>
      match skip_blanks s with
      | [] => Some ([], [])
      | c :: r =>
          if c =? NL then Some ([], r)
          else if c =? 35 then None           (* a comment: not produced *)
          else
            match word 0 (c :: r) with
            | Some ([], _) | None => None
            | Some (w, r') => match words f r' with Some (ws, q) => Some (w :: ws, q) | None => None end
            end
      end
  end.
Definition rule : Type := (list Z * list (list Z))%type.
Fixpoint rules (fuel : nat) (s : list Z) : option (list rule) :=
  match fuel with
  | O => None
  | S f =>
      match s with
      | [] => Some []
      | c :: r =>
          if c =? NL then rules f r
          else
            match word 0 s with
            | Some (t, d :: r1) =>
                if d =? 58 then
                  match words f r1 with
                  | Some (ws, r2) => match rules f r2 with Some q => Some ((t, ws) :: q) | None => None end
                  | None => None
                  end
                else None
            | _ => None
            end
      end
  end.

(** Names that can be quoted: no colon, no newline, no backslash before # or at the end. *)
Fixpoint quotable (after_bs : bool) (s : list Z) : Prop :=
  match s with
  | [] => after_bs = false
  | c :: r => c <> 58 /\ c <> NL /\ c <> 0 /\ (after_bs = true -> c <> 35) /\ quotable (c =? BS) r
  end.
(** Names that need no quoting. *)
Definition unquoted (s : list Z) : Prop :=
  s <> [] /\ Forall (fun c => special c = false /\ c <> BS /\ c <> NL /\ c <> 36 /\ c <> 0) s.

(** Files read; -MM leaves out system headers. *)
Record dfile := { dname : list Z; syshdr : bool; is_input : bool }.
Definition wanted (MM : bool) (f : dfile) : bool := is_input f && negb (MM && syshdr f).
Definition names (MM : bool) (l : list dfile) : list (list Z) := map dname (filter (wanted MM) l).
Definition phony_rules (MM : bool) (l : list dfile) : list rule := map (fun n => (n, [])) (names MM l).
