(** Include directories and include lookups, as documented. Paths are lists of bytes. *)
From Coq Require Import ZArith List Bool.
Import ListNotations.
Local Open Scope Z_scope.

Definition path : Type := list Z.
Definition slash : Z := 47.
Definition path_eq_dec : forall a b : path, {a = b} + {a <> b} := list_eq_dec Z.eq_dec.
Definition has_path (p : path) (l : list path) : bool := if in_dec path_eq_dec p l then true else false.

(** ** The search list *)

(** Trailing slashes do not matter; "/" is not shortened. *)
Fixpoint drop_slashes (r : list Z) : list Z :=
  match r with c :: r' => if c =? slash then drop_slashes r' else r | [] => [] end.
Definition strip (p : path) : path :=
  match rev (drop_slashes (rev p)) with
  | [] => match p with [] => [] | _ => [slash] end
  | q => q
  end.
(** The directories of a list in the order they first appear. *)
Fixpoint firsts (seen l : list path) : list path :=
  match l with
  | [] => []
  | p :: r => if has_path p seen then firsts seen r else p :: firsts (p :: seen) r
  end.

Inductive iopt := OptI (p : path) | OptSystem (p : path) | OptAfter (p : path).
Definition dirs_I (l : list iopt) : list path := flat_map (fun o => match o with OptI p => [p] | _ => [] end) l.
Definition dirs_system (l : list iopt) : list path := flat_map (fun o => match o with OptSystem p => [p] | _ => [] end) l.
Definition dirs_after (l : list iopt) : list path := flat_map (fun o => match o with OptAfter p => [p] | _ => [] end) l.

Definition system_list (std : list path) (l : list iopt) : list path :=
  firsts [] (map strip (dirs_system l ++ std ++ dirs_after l)).
Definition search_list (std : list path) (l : list iopt) : list path :=
  filter (fun p => negb (has_path p (system_list std l))) (firsts [] (map strip (dirs_I l)))
  ++ system_list std l.

Definition c_string (p : path) : Prop := Forall (fun c => c <> 0) p.
Definition opt_dir (o : iopt) : path := match o with OptI p | OptSystem p | OptAfter p => p end.

(** ** Lookups *)
Section Lookup.
Variable exists_ : path -> bool.          (* the file system, unchanged during the run *)
Variable dirname : path -> path.
Variable dirs : list path.

Definition inside (d name : path) : path := d ++ slash :: name.
Definition absolute (name : path) : bool := match name with c :: _ => c =? slash | [] => false end.

(** The first directory, from number [i] on, with a file of that name satisfying [ok]. *)
Fixpoint first_in (ok : path -> bool) (i : Z) (l : list path) (name : path) : option (path * Z) :=
  match l with
  | [] => None
  | d :: r =>
      if exists_ (inside d name) && ok (inside d name) then Some (inside d name, i) else first_in ok (i + 1) r name
  end.
Definition from_list (name : path) : option (path * Z) :=
  if absolute name then Some (name, -1) else first_in (fun _ => true) 0 dirs name.
(** Number -1: not found through the list. *)
Definition lookup (name : path) (quoted : bool) (cur : path) : option (path * Z) :=
  if negb (absolute name) && quoted && exists_ (inside (dirname cur) name)
  then Some (inside (dirname cur) name, -1)
  else from_list name.
(** #include_next in a file found in directory [k]. *)
Definition lookup_next (name cur : path) (k : Z) : option (path * Z) :=
  first_in (fun p => negb (if path_eq_dec p cur then true else false)) (k + 1)
    (skipn (Z.to_nat (k + 1)) dirs) name.

Inductive ievent :=
| Include (name : path) (quoted : bool) (cur : path)    (* #include in file [cur] *)
| Peek (name : path) (quoted : bool) (cur : path)       (* __has_include, #embed *)
| Cli (name : path)                                     (* -include *)
| Next (name cur : path).                               (* #include_next in file [cur] *)

Definition cli (name : path) : option (path * Z) :=
  if exists_ name then Some (name, -1) else from_list name.
(** Files found so far and where, newest first. *)
Definition found_t : Type := list (path * Z).
Fixpoint where_found (f : found_t) (p : path) : option Z :=
  match f with [] => None | (q, i) :: r => if path_eq_dec q p then Some i else where_found r p end.
Definition answer (f : found_t) (e : ievent) : option (path * Z) :=
  match e with
  | Include n q c | Peek n q c => lookup n q c
  | Cli n => cli n
  | Next n c => match where_found f c with Some k => lookup_next n c k | None => None end
  end.
Definition opens (e : ievent) : bool := match e with Peek _ _ _ => false | _ => true end.
Fixpoint answers (f : found_t) (l : list ievent) : list (option path) * found_t :=
  match l with
  | [] => ([], f)
  | e :: r =>
      let a := answer f e in
      let f' := match a with Some p => if opens e then p :: f else f | None => f end in
      let q := answers f' r in
      (match a with Some p => Some (fst p) | None => None end :: fst q, snd q)
  end.
(** No file is found in two ways. *)
Definition one_way (f : found_t) : Prop := forall p i j, In (p, i) f -> In (p, j) f -> i = j.
Definition directive (e : ievent) : Prop :=
  match e with Include n _ _ | Next n _ => n <> [] | _ => False end.
Definition not_next (e : ievent) : Prop :=
  match e with Include n _ _ | Peek n _ _ | Cli n => n <> [] | Next _ _ => False end.
End Lookup.
