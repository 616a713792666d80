(** Model of dead function elimination: mark_fn_live (parse.c 4551-4561), its roots
    (parse.c 4768-4771) and the functions codegen writes (codegen.c 4256-4268). Objects are
    indices of the list of globals, is_live is a boolean per index. [find_func] (parse.c
    4540-4549: the lookup at file scope, ScopeModel) is a parameter. Simplifications: recursion
    is bounded by fuel, running out aborts; the text of functions and data is not modelled here. *)
From Coq Require Import ZArith List Bool.
From Verif Require Import Base LiveSpec.
Import ListNotations.

Section Live.
Variable find_func : list Z -> option nat.
Variable gs : list global.

Definition live_set : Type := nat -> bool.
Definition set_live (l : live_set) (i : nat) : live_set := fun j => if Nat.eqb j i then true else l j.
Definition refs_of (i : nat) : list (list Z) :=
  match nth_error gs i with Some g => refs g | None => [] end.

(** parse.c:4556-4560 *)
Section Refs.
Variable mark : nat -> live_set -> outcome live_set.
Fixpoint mark_refs (ns : list (list Z)) (l : live_set) : outcome live_set :=
  match ns with
  | [] => Ok l
  | n :: r =>
      do l' <- match find_func n with Some j => mark j l | None => Ok l end;
      mark_refs r l'
  end.
End Refs.

(** parse.c:4551-4561 *)
Fixpoint mark_fn_live (fuel : nat) (i : nat) (l : live_set) : outcome live_set :=
  match fuel with
  | O => Abort
  | S f => if l i then Ok l else mark_refs (mark_fn_live f) (refs_of i) (set_live l i)
  end.

(** parse.c:4768-4771 *)
Definition roots_here (g : global) : bool :=
  gdef g && gfunc g && (mentioned g || negb (gstatic g && ginline g)).
Fixpoint mark_roots (fuel : nat) (i : nat) (rest : list global) (l : live_set) : outcome live_set :=
  match rest with
  | [] => Ok l
  | g :: r =>
      do l' <- if roots_here g then mark_fn_live fuel i l else Ok l;
      mark_roots fuel (S i) r l'
  end.

(** codegen.c:4256-4268: the functions written. *)
Fixpoint written (i : nat) (rest : list global) (l : live_set) : list nat :=
  match rest with
  | [] => []
  | g :: r =>
      (if negb (gdef g) then [] else if gfunc g then (if l i then [i] else []) else [])
      ++ written (S i) r l
  end.

Definition functions_written : outcome (list nat) :=
  do l <- mark_roots (S (length gs)) 0 gs (fun _ => false);
  Ok (written 0 gs l).
End Live.
