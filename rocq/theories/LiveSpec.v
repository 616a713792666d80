(** Which functions a translation unit has to emit. *)
From Coq Require Import ZArith List Bool.
Import ListNotations.

(** What is known of a file-scope name once everything is parsed. [refs] are the names of the
    functions its body mentions; [mentioned] says a declaration outside of all functions (or the
    constructor/destructor list) mentions it. *)
Record global := { gdef : bool; gfunc : bool; gstatic : bool; ginline : bool; mentioned : bool;
                   refs : list (list Z) }.

Section Unit.
Variable find_func : list Z -> option nat.   (* the function a name denotes at file scope *)
Variable gs : list global.

(** Definitions other compilers' output may use, or that data of this unit use. *)
Definition is_root (i : nat) : Prop :=
  exists g, nth_error gs i = Some g /\ gdef g = true /\ gfunc g = true /\
    (mentioned g = true \/ gstatic g = false \/ ginline g = false).
Definition mentions (i j : nat) : Prop :=
  exists g n, nth_error gs i = Some g /\ In n (refs g) /\ find_func n = Some j.
Inductive needed : nat -> Prop :=
| n_root i : is_root i -> needed i
| n_mention i j : needed i -> mentions i j -> needed j.
End Unit.

(** Names denote globals of the unit. *)
Definition names_ok (find_func : list Z -> option nat) (gs : list global) : Prop :=
  forall n j, find_func n = Some j -> (j < length gs)%nat.
