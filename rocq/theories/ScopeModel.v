(** Model of scopes: parse.c 190-252, 410-414, 552-554. A scope is its two hash tables
    (HashmapModel); the chain of parents is a list, innermost first. Simplifications: the tables
    of scopes left are not freed (they are not used again); the children list is part of
    FrameModel. *)
From Coq Require Import ZArith List Bool.
From Verif Require Import Base HashmapModel ScopeSpec.
Import ListNotations.
Local Open Scope Z_scope.

Section Scope.
Variable hash : key -> Z.

Definition scopes : Type := list (hmap * hmap).

(** parse.c:190-195, 202-208. Leaving file scope leaves no scope at all. *)
Definition enter_scope (s : scopes) : scopes := (empty_map, empty_map) :: s.
Definition leave_scope (s : scopes) : outcome scopes :=
  match s with [] => UB | _ :: r => Ok r end.

(** parse.c:236-243 and 245-252, the loop over the parents. *)
Fixpoint find (get : hmap * hmap -> hmap) (s : scopes) (k : key) : outcome Z :=
  match s with
  | [] => Ok 0
  | sc :: r =>
      do v <- hashmap_get hash (get sc) k;
      if v =? 0 then find get r k else Ok v
  end.
Definition find_var (s : scopes) (k : key) : outcome Z := find fst s k.
Definition find_tag (s : scopes) (k : key) : outcome Z := find snd s k.

(** parse.c:410-414, 552-554. *)
Definition push_scope (s : scopes) (k : key) (v : Z) : outcome scopes :=
  match s with
  | [] => UB
  | (vars, tags) :: r => do m <- hashmap_put hash vars k v; Ok ((m, tags) :: r)
  end.
Definition push_tag_scope (s : scopes) (k : key) (v : Z) : outcome scopes :=
  match s with
  | [] => UB
  | (vars, tags) :: r => do m <- hashmap_put hash tags k v; Ok ((vars, m) :: r)
  end.

Definition do_event (s : scopes) (ev : sevent) : outcome (scopes * list Z) :=
  match ev with
  | Enter => Ok (enter_scope s, [])
  | Leave => do s' <- leave_scope s; Ok (s', [])
  | DeclVar k v => do s' <- push_scope s k v; Ok (s', [])
  | DeclTag k v => do s' <- push_tag_scope s k v; Ok (s', [])
  | FindVar k => do v <- find_var s k; Ok (s, [v])
  | FindTag k => do v <- find_tag s k; Ok (s, [v])
  end.
Fixpoint run_events (s : scopes) (l : list sevent) : outcome (scopes * list Z) :=
  match l with
  | [] => Ok (s, [])
  | ev :: r =>
      do p <- do_event s ev;
      do q <- run_events (fst p) r;
      Ok (fst q, snd p ++ snd q)
  end.
End Scope.
