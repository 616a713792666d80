(** Specification for the code of statements: where the variables live. Refers to the model
    only for the options and locations it is given. *)
From Coq Require Import ZArith List Bool.
From Verif Require Import Base IntSpec IntMain X86 CgModel CgSpec StmtSpec.
Import ListNotations.
Local Open Scope Z_scope.

(** Every variable is in memory outside the area [lo, hi) of temporaries, holds its value,
    and has the value the compiler was told if it was told one. *)
Definition held (G : genv) (sym : nat -> Z) (regs : reg -> Z) (mem : Z -> Z) (lo hi : Z)
  (V : list (ityp * nat)) (env : nat -> Z) : Prop :=
  forall t x, In (t, x) V ->
    in_range t (env x) /\ known_ok (IntModel.known (gc G)) env (EVar t x) /\
    stored G sym regs mem lo hi env (EVar t x).

(** Different variables do not overlap. *)
Definition separate (G : genv) (sym : nat -> Z) (regs : reg -> Z) (V : list (ityp * nat)) : Prop :=
  forall t x u y, In (t, x) V -> In (u, y) V -> (t = u /\ x = y) \/
    (x <> y /\ (obj_addr G sym regs x + isize t <= obj_addr G sym regs y \/
                obj_addr G sym regs y + isize u <= obj_addr G sym regs x)).

(** [a] is a byte of a variable that is not constant. *)
Definition of_variable (G : genv) (sym : nat -> Z) (regs : reg -> Z) (V : list (ityp * nat)) (a : Z) : Prop :=
  exists t x, In (t, x) V /\ IntModel.known (gc G) x = None /\
    obj_addr G sym regs x <= a < obj_addr G sym regs x + isize t.

(** Labels around a statement: distinct, not numbered in [lo, hi), and not one of the unique
    names [a] to [b - 1], which are numbered downwards from -1. *)
Definition labels_around (code : list instr) (lo hi a b : Z) : Prop :=
  NoDup (labels code) /\
  forall l, In l (labels code) -> (snd l < lo \/ hi <= snd l) /\ (snd l < - b \/ - a <= snd l).

(** Where execution continues after a statement that is not in a loop: at its end, or at the
    return label. *)
Definition continues (o : ending) (fin ret : nat) : option nat :=
  match o with Normal => Some fin | Return _ => Some ret | Break | Continue => None end.

(** The returned value is in %rax. *)
Definition returned (rt : ityp) (o : ending) (ax : Z) : Prop :=
  match o with
  | Return (Some v) => ax mod 2 ^ result_bits rt = v mod 2 ^ result_bits rt
  | _ => True
  end.
