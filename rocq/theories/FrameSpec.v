(** Specification for the stack frame: places in memory and registers. *)
From Coq Require Import ZArith List Bool.
Import ListNotations.
Local Open Scope Z_scope.

(** A block of scopes: what is declared in it, and the blocks inside. *)
Inductive tree (A : Type) := Node (vs : list A) (cs : list (tree A)).
Arguments Node {A}.
Fixpoint everything {A} (t : tree A) : list A :=
  match t with Node vs cs => vs ++ flat_map everything cs end.
(** What is declared on the way to each block: what is alive there. *)
Fixpoint paths {A} (t : tree A) : list (list A) :=
  match t with Node vs cs => vs :: map (app vs) (flat_map paths cs) end.
Fixpoint tree_map {A B} (f : A -> B) (t : tree A) : tree B :=
  match t with Node vs cs => Node (map f vs) (map (tree_map f) cs) end.
(** Bytes from [a] on, [n] of them. *)
Definition apart (a n b m : Z) : Prop := a + n <= b \/ b + m <= a.

(** Where a temporary is kept: a general register, a vector register, or bytes relative to the
    frame pointer. *)
Inductive place := InGp (n : Z) | InFp (n : Z) | InMem (ofs n : Z).
Definition separate (p q : place) : Prop :=
  match p, q with
  | InGp a, InGp b => a <> b
  | InFp a, InFp b => a <> b
  | InMem a n, InMem b m => apart a n b m
  | _, _ => True
  end.
(** A temporary: made and used at these times, kept there. *)
Record temporary := mktmp { made : nat; used : nat; where_ : place }.
(** What happens to temporaries in the order of the generated code: one is made, to be kept in a
    general register, a vector register or memory if possible; the last one is used; all registers
    are overwritten; the first [i] general registers are overwritten. *)
Inductive skind := SL_GP | SL_FP | SL_ST.
Inductive event := EPush (k : skind) | EPop (wide : bool) | EClobber | EClobberGp (i : Z).
(** Times of making and using, in the order of use; None when there is nothing to use. *)
Fixpoint lifetimes (t : nat) (es : list event) (alive : list nat) : option (list (nat * nat)) :=
  match es with
  | [] => Some []
  | EPush _ :: r => lifetimes (S t) r (t :: alive)
  | EPop _ :: r =>
      match alive with
      | [] => None
      | b :: o => option_map (cons (b, t)) (lifetimes (S t) r o)
      end
  | _ :: r => lifetimes (S t) r alive
  end.
(** Powers of two. *)
Definition pow2 (z : Z) : Prop := exists k, 0 <= k /\ z = 2 ^ k.
