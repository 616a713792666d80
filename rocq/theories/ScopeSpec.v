(** Scopes and references as the language defines them. *)
From Coq Require Import ZArith List Bool.
Import ListNotations.
Local Open Scope Z_scope.

(** Events of a translation unit: scopes, declarations (objects, functions, typedefs and
    enumerators in one name space, tags in the other), lookups. Names are byte strings, what is
    declared is a non-null pointer. *)
Inductive sevent :=
| Enter | Leave
| DeclVar (k : list Z) (v : Z) | DeclTag (k : list Z) (v : Z)
| FindVar (k : list Z) | FindTag (k : list Z).

(** The open scopes, innermost first; in each the declarations of both name spaces, newest
    first. *)
Definition decls : Type := list (list Z * Z).
Definition env : Type := list (decls * decls).

Fixpoint newest (d : decls) (k : list Z) : option Z :=
  match d with
  | [] => None
  | (k', v) :: r => if list_eq_dec Z.eq_dec k' k then Some v else newest r k
  end.
(** The declaration a name refers to, 0 if none. *)
Fixpoint visible (ds : list decls) (k : list Z) : Z :=
  match ds with
  | [] => 0
  | d :: r => match newest d k with Some v => v | None => visible r k end
  end.

Definition step (e : env) (ev : sevent) : option (env * list Z) :=
  match ev, e with
  | Enter, _ => Some (([], []) :: e, [])
  | Leave, _ :: r => Some (r, [])
  | DeclVar k v, (dv, dt) :: r => Some (((k, v) :: dv, dt) :: r, [])
  | DeclTag k v, (dv, dt) :: r => Some ((dv, (k, v) :: dt) :: r, [])
  | FindVar k, _ => Some (e, [visible (map fst e) k])
  | FindTag k, _ => Some (e, [visible (map snd e) k])
  | _, [] => None
  end.
Fixpoint lookups (e : env) (l : list sevent) : option (list Z) :=
  match l with
  | [] => Some []
  | ev :: r =>
      match step e ev with
      | None => None
      | Some (e', out) => match lookups e' r with Some q => Some (out ++ q) | None => None end
      end
  end.

Definition declares (ev : sevent) : bool :=
  match ev with DeclVar _ _ | DeclTag _ _ => true | _ => false end.
Definition declared (l : list sevent) : Z := Z.of_nat (length (filter declares l)).
Definition no_null (ev : sevent) : Prop :=
  match ev with DeclVar _ v | DeclTag _ v => v <> 0 | _ => True end.

(** Sequences that never leave the scope they start in ([d] scopes deep). *)
Fixpoint stays (d : nat) (l : list sevent) : Prop :=
  match l with
  | [] => d = O
  | Enter :: r => stays (S d) r
  | Leave :: r => match d with O => False | S d' => stays d' r end
  | (DeclVar _ _ | DeclTag _ _) :: r => d <> O /\ stays d r
  | _ :: r => stays d r
  end.
