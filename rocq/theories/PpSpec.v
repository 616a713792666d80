(** Specification of conditional inclusion and inclusion of files (C23 6.10.2, 6.10.3),
    independent of the model. *)
From Coq Require Import Ascii String ZArith List Bool.
From Verif Require Import Base.
Import ListNotations.
Local Open Scope string_scope.
Local Open Scope list_scope.

(** A preprocessing token: first of its line, identifier, spelling. *)
Record stok := mkstok { bol : bool; ident : bool; text : string }.
(** Defined macros, with the rest of the line of their definition. *)
Definition macros := list (string * list stok).
Definition lookup {A} (s : string) (m : list (string * A)) : option A :=
  match find (fun e => String.eqb (fst e) s) m with Some e => Some (snd e) | None => None end.
Definition is_some {A} (o : option A) : bool := match o with Some _ => true | None => false end.
Definition undef (s : string) (m : macros) : macros := filter (fun e => negb (String.eqb (fst e) s)) m.

(** Given from outside: the value of a controlling expression, the file an #include line
    designates (it may depend on the including file), and the contents of files. *)
Record env := mkenv {
  eval : macros -> list stok -> outcome bool;
  resolve : macros -> nat -> list stok -> outcome nat;
  files : nat -> outcome (list stok)
}.

(** The structure of a file, over any kind of token. A directive line is a #, its name and the
    rest of the line. *)
Inductive items (A : Type) :=
| INil
| ILine (l : list A) (rest : items A)
| IDir (h d : A) (r : list A) (rest : items A)
| ICond (h d : A) (r : list A) (group : items A) (t : tail A) (rest : items A)
with tail (A : Type) :=
| TEnd (h d : A) (r : list A)
| TElif (h d : A) (r : list A) (group : items A) (t : tail A)
| TElse (h d : A) (r : list A) (group : items A) (h' d' : A) (r' : list A).
Arguments INil {A}. Arguments ILine {A}. Arguments IDir {A}. Arguments ICond {A}.
Arguments TEnd {A}. Arguments TElif {A}. Arguments TElse {A}.

Fixpoint print {A} (t : items A) : list A :=
  match t with
  | INil => []
  | ILine l rest => l ++ print rest
  | IDir h d r rest => h :: d :: r ++ print rest
  | ICond h d r g t rest => h :: d :: r ++ print g ++ print_tail t ++ print rest
  end
with print_tail {A} (t : tail A) : list A :=
  match t with
  | TEnd h d r => h :: d :: r
  | TElif h d r g t => h :: d :: r ++ print g ++ print_tail t
  | TElse h d r g h' d' r' => h :: d :: r ++ print g ++ h' :: d' :: r'
  end.

Definition cond_names : list string := ["if"; "ifdef"; "ifndef"; "elif"; "elifdef"; "elifndef"; "else"; "endif"].
Definition line_rest (r : list stok) : Prop := Forall (fun t => bol t = false) r.
Definition dir_line (h d : stok) (r : list stok) : Prop :=
  bol h = true /\ text h = "#" /\ bol d = false /\ line_rest r.
(** #ifdef and its relatives are followed by an identifier. *)
Definition operand (d : stok) (r : list stok) : Prop :=
  In (text d) ["if"; "elif"] \/ exists n r', r = n :: r' /\ ident n = true.
(** Lines of text begin with a token other than #; null directives do not occur, and #define, #undef
    and #pragma have an operand on their line. *)
Fixpoint wf (t : items stok) : Prop :=
  match t with
  | INil => True
  | ILine l rest => (exists h r, l = h :: r /\ bol h = true /\ text h <> "#" /\ line_rest r) /\ wf rest
  | IDir h d r rest => dir_line h d r /\ ~ In (text d) cond_names /\ (In (text d) ["define"; "undef"; "pragma"] -> r <> []) /\ wf rest
  | ICond h d r g t rest =>
      dir_line h d r /\ In (text d) ["if"; "ifdef"; "ifndef"] /\ operand d r /\ wf g /\ wf_tail t /\ wf rest
  end
with wf_tail (t : tail stok) : Prop :=
  match t with
  | TEnd h d r => dir_line h d r /\ text d = "endif"
  | TElif h d r g t =>
      dir_line h d r /\ In (text d) ["elif"; "elifdef"; "elifndef"] /\ operand d r /\ wf g /\ wf_tail t
  | TElse h d r g h' d' r' =>
      dir_line h d r /\ text d = "else" /\ wf g /\ dir_line h' d' r' /\ text d' = "endif"
  end.

(** *** Meaning *)
Record sstate := mksst { smacros : macros; sonce : list nat; sout : list stok }.
(** Whether a group is taken. *)
Definition holds (e : env) (m : macros) (d : stok) (r : list stok) : outcome bool :=
  if existsb (String.eqb (text d)) ["if"; "elif"] then eval e m r
  else
    let def := match r with n :: _ => is_some (lookup (text n) m) | [] => false end in
    Ok (if existsb (String.eqb (text d)) ["ifdef"; "elifdef"] then def else negb def).

(** Directives other than conditionals and #include: [cur] is the file. *)
Definition other (cur : nat) (d : stok) (r : list stok) (st : sstate) : outcome sstate :=
  let m := smacros st in
  let with_name (f : string -> list stok -> macros) : outcome sstate :=
    match r with
    | n :: r' => if ident n then Ok (mksst (f (text n) r') (sonce st) (sout st)) else Abort
    | [] => Abort
    end in
  if String.eqb (text d) "define" then with_name (fun n b => (n, b) :: undef n m)
  else if String.eqb (text d) "undef" then with_name (fun n _ => undef n m)
  else if String.eqb (text d) "pragma" then
    Ok (match r with n :: _ => if String.eqb (text n) "once" then mksst m (cur :: sonce st) (sout st) else st | [] => st end)
  else if String.eqb (text d) "line" || String.eqb (text d) "warning" then Ok st
  else Abort.

(** At most one group of a conditional is processed: the first whose condition holds. [depth]
    bounds the nesting of includes. A file marked #pragma once is not read again; nothing else
    keeps a file from being read. [inc] is the meaning of an #include of a file. *)
Fixpoint sem (e : env) (inc : nat -> sstate -> outcome sstate) (cur : nat) (t : items stok) (st : sstate) : outcome sstate :=
  match t with
  | INil => Ok st
  | ILine l rest => sem e inc cur rest (mksst (smacros st) (sonce st) (sout st ++ l))
  | IDir h d r rest =>
      if String.eqb (text d) "include" then
        do p <- resolve e (smacros st) cur r;
        do st' <- inc p st;
        sem e inc cur rest st'
      else
        do st' <- other cur d r st;
        sem e inc cur rest st'
  | ICond h d r g t rest =>
      do b <- holds e (smacros st) d r;
      do st' <- (if b then sem e inc cur g st else sem_tail e inc cur t st);
      sem e inc cur rest st'
  end
with sem_tail (e : env) (inc : nat -> sstate -> outcome sstate) (cur : nat) (t : tail stok) (st : sstate) : outcome sstate :=
  match t with
  | TEnd _ _ _ => Ok st
  | TElif _ d r g t =>
      do b <- holds e (smacros st) d r;
      if b then sem e inc cur g st else sem_tail e inc cur t st
  | TElse _ _ _ g _ _ _ => sem e inc cur g st
  end.
(** Files nested at most [n] deep; [tree p] is the structure of file p. *)
Fixpoint sem_file (e : env) (tree : nat -> items stok) (n : nat) (p : nat) (st : sstate) : outcome sstate :=
  match n with
  | O => UB
  | S n' =>
      if existsb (Nat.eqb p) (sonce st) then Ok st
      else sem e (sem_file e tree n') p (tree p) st
  end.

(** *** Balance *)
Definition hash (t : stok) : bool := bol t && String.eqb (text t) "#".
Definition oneof (d : stok) (ss : list string) : bool := existsb (String.eqb (text d)) ss.
(** Every # that begins a line is followed by a name on its line, and #define, #undef, #ifdef and its relatives
    by a further token on their line. *)
Fixpoint lines_ok (l : list stok) : bool :=
  match l with
  | [] => true
  | h :: r =>
      (if hash h then
         match r with
         | d :: r2 =>
             negb (bol d) &&
             (if oneof d ["ifdef"; "ifndef"; "elifdef"; "elifndef"; "define"; "undef"] then match r2 with n :: _ => negb (bol n) | [] => false end else true)
         | [] => false
         end
       else true) && lines_ok r
  end.
(** Openers and #endif match, with [k] conditionals open at the start. *)
Fixpoint balanced (k : nat) (l : list stok) : bool :=
  match l with
  | [] => Nat.eqb k 0
  | h :: r =>
      if hash h then
        match r with
        | [] => Nat.eqb k 0
        | d :: _ =>
            if oneof d ["if"; "ifdef"; "ifndef"] then balanced (S k) r
            else if oneof d ["endif"] then match k with O => false | S k' => balanced k' r end
            else balanced k r
        end
      else balanced k r
  end.
