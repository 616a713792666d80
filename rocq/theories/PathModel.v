(** Model of the include search list (main.c: add_include_path 114-131, the -I, -isystem and
    -idirafter options 261-274, the end of parse_args 531-550) and of include lookups
    (preprocess.c: search_include_paths3/2/next 984-1027, the directives 1250-1275 and
    has_include_macro 1588-1612; main.c 753-768; tokenize.c: add_input_file 924-945).
    Simplifications: strings are lists of bytes without the final 0; the result cache and the
    table of input files are association lists (HashmapModel shows the hash tables are finite
    maps); the file system, dirname and the standard directories are parameters; after a failed
    lookup the program would exit, the model goes on. *)
From Coq Require Import ZArith List Bool.
From Verif Require Import Base PathSpec.
Import ListNotations.
Local Open Scope Z_scope.

(** Byte [i] of a C string, the terminating 0 included. *)
Definition cbyte (s : path) (i : nat) : outcome Z :=
  match nth_error s i with
  | Some c => Ok c
  | None => if Nat.eqb i (length s) then Ok 0 else UB
  end.
(** strncmp(s, t, n) == 0 from byte [i] on. *)
Fixpoint strncmp0 (s t : path) (i n : nat) : outcome bool :=
  match n with
  | O => Ok true
  | S n' =>
      do a <- cbyte s i; do b <- cbyte t i;
      if negb (a =? b) then Ok false else if a =? 0 then Ok true else strncmp0 s t (S i) n'
  end.
(** strcmp(s, t) == 0; the bound is never reached. *)
Definition strcmp0 (s t : path) : outcome bool := strncmp0 s t 0 (S (length s)).

(** main.c:116-119 *)
Fixpoint trim (p : path) (len : nat) : outcome nat :=
  match len with
  | S (S _ as l) => do c <- cbyte p l; if c =? slash then trim p l else Ok len
  | _ => Ok len
  end.
(** main.c:121-125 *)
Fixpoint listed (arr : list path) (p : path) (len : nat) : outcome bool :=
  match arr with
  | [] => Ok false
  | s :: r =>
      do e <- strncmp0 s p 0 len;
      do z <- if e then (do c <- cbyte s len; Ok (c =? 0)) else Ok false;
      if z then Ok true else listed r p len
  end.
Definition add_include_path (arr : list path) (p : path) : outcome (list path) :=
  let orig := length p in
  do len <- trim p orig;
  do b <- listed arr p len;
  if b then Ok arr
  else Ok (arr ++ [if Nat.eqb len orig then p else firstn len p]).

Fixpoint add_all (arr l : list path) : outcome (list path) :=
  match l with [] => Ok arr | p :: r => do a <- add_include_path arr p; add_all a r end.

(** main.c:261-274: include_paths, sysincl_paths, idirafter. *)
Definition lists : Type := (list path * list path * list path)%type.
Definition option_step (s : lists) (o : iopt) : outcome lists :=
  let '(u, y, a) := s in
  match o with
  | OptI p => do u' <- add_include_path u p; Ok (u', y, a)
  | OptSystem p => do y' <- add_include_path y p; Ok (u, y', a)
  | OptAfter p => do a' <- add_include_path a p; Ok (u, y, a')
  end.
Fixpoint options (s : lists) (l : list iopt) : outcome lists :=
  match l with [] => Ok s | o :: r => do s' <- option_step s o; options s' r end.

(** main.c:540-543 *)
Fixpoint is_system (sys : list path) (p : path) : outcome bool :=
  match sys with
  | [] => Ok false
  | s :: r => do e <- strcmp0 s p; if e then Ok true else is_system r p
  end.
(** main.c:538-547 *)
Fixpoint keep_user (sys u : list path) : outcome (list path) :=
  match u with
  | [] => Ok []
  | p :: r =>
      do m <- is_system sys p;
      do k <- keep_user sys r;
      Ok (if m then k else p :: k)
  end.
Definition include_paths (std : list path) (l : list iopt) : outcome (list path) :=
  do s <- options ([], [], []) l;
  let '(u, y, a) := s in
  do y1 <- add_all y std;
  do y2 <- add_all y1 a;
  do k <- keep_user y2 u;
  Ok (k ++ y2).

(** ** Lookups *)
Section Lookup.
Variable exists_ : path -> bool.
Variable dirname : path -> path.
Variable dirs : list path.

Fixpoint assoc {A} (l : list (path * A)) (p : path) : option A :=
  match l with [] => None | (q, v) :: r => if path_eq_dec q p then Some v else assoc r p end.

(** The static cache and the files registered with their incl_no. *)
Record ist := mkist { cache : list (path * path); files : list (path * Z) }.

(** preprocess.c:994-1002 *)
Fixpoint search_loop (i : Z) (l : list path) (name : path) : option (path * Z) :=
  match l with
  | [] => None
  | d :: r => let p := inside d name in
              if negb (exists_ p) then search_loop (i + 1) r name else Some (p, i)
  end.
(** preprocess.c:984-1004. The number is the value of *incl_no, which is -1 before. *)
Definition search3 (st : ist) (name : path) : option (path * Z) * ist :=
  match name with
  | [] => (None, st)       (* not reached: names are not empty *)
  | c :: _ =>
      if c =? slash then (Some (name, -1), st)
      else
        match assoc (cache st) name with
        | Some p => (Some (p, -1), st)
        | None =>
            match search_loop 0 dirs name with
            | Some (p, i) => (Some (p, i), mkist ((name, p) :: cache st) (files st))
            | None => (None, st)
            end
        end
  end.
(** preprocess.c:1006-1014 *)
Definition search2 (st : ist) (name : path) (dq : bool) (cur : path) : option (path * Z) * ist :=
  let here := inside (dirname cur) name in
  if negb (absolute name) && dq && exists_ here then (Some (here, -1), st) else search3 st name.
(** preprocess.c:1020-1027 *)
Fixpoint next_loop (i : Z) (l : list path) (name cur : path) : option (path * Z) :=
  match l with
  | [] => None
  | d :: r => let p := inside d name in
              if exists_ p && negb (if path_eq_dec p cur then true else false) then Some (p, i)
              else next_loop (i + 1) r name cur
  end.
Definition search_next (name cur : path) (idx : Z) : option (path * Z) :=
  next_loop idx (skipn (Z.to_nat idx) dirs) name cur.
(** tokenize.c:924-945 *)
Definition add_input_file (st : ist) (p : path) (incl_no : Z) : ist :=
  match assoc (files st) p with
  | Some _ => st
  | None => mkist (cache st) ((p, incl_no) :: files st)
  end.

Definition do_lookup (st : ist) (e : ievent) : option path * ist :=
  match e with
  | Include n q c =>
      match search2 st n q c with
      | (Some (p, i), st') => (Some p, add_input_file st' p i)
      | (None, st') => (None, st')
      end
  | Peek n q c =>
      match search2 st n q c with
      | (Some (p, _), st') => (Some p, st')
      | (None, st') => (None, st')
      end
  | Cli n =>
      if exists_ n then (Some n, add_input_file st n (-1))
      else match search3 st n with
           | (Some (p, _), st') => (Some p, add_input_file st' p (-1))
           | (None, st') => (None, st')
           end
  | Next n c =>
      match assoc (files st) c with
      | None => (None, st)
      | Some k =>
          match search_next n c (k + 1) with
          | Some (p, i) => (Some p, add_input_file st p i)
          | None => (None, st)
          end
      end
  end.
Fixpoint do_lookups (st : ist) (l : list ievent) : list (option path) :=
  match l with
  | [] => []
  | e :: r => let q := do_lookup st e in fst q :: do_lookups (snd q) r
  end.
Definition start (main : path) : ist := mkist [] [(main, -1)].
End Lookup.
