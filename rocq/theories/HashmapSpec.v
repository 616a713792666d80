(** What a client of the symbol table relies on: a plain finite map. *)
From Coq Require Import ZArith List Bool.
Import ListNotations.
Local Open Scope Z_scope.

(** Client operations, newest last. 0 is the NULL result for "absent". *)
Inductive event := EPut (k : list Z) (v : Z) | EGet (k : list Z) | EDel (k : list Z).

Definition keq (a b : list Z) : {a = b} + {a <> b} := list_eq_dec Z.eq_dec a b.

(** The answer to a lookup of [k] after the operations [past] (newest first): the newest
    put or delete of that very key decides. *)
Fixpoint answer (past : list event) (k : list Z) : Z :=
  match past with
  | [] => 0
  | EPut k' v :: r => if keq k' k then v else answer r k
  | EDel k' :: r => if keq k' k then 0 else answer r k
  | EGet _ :: r => answer r k
  end.

(** All answers of a sequence. *)
Fixpoint answers (past todo : list event) : list Z :=
  match todo with
  | [] => []
  | EGet k :: r => answer past k :: answers (EGet k :: past) r
  | e :: r => answers (e :: past) r
  end.

Definition is_put (e : event) : bool := match e with EPut _ _ => true | _ => false end.
Definition puts (l : list event) : Z := Z.of_nat (length (filter is_put l)).
