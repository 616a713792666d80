(** Model of conditional inclusion and of include-once bookkeeping (preprocess.c). A token list
    ends with an EOF token, which is at the beginning of a line; it is represented by the end of
    the list, and reading past it is UB. Macro expansion is not part of this model: tokens that
    are not directives are passed on unchanged. *)
From Coq Require Import Ascii String ZArith List Bool.
From Verif Require Import Base PpSpec.
Import ListNotations.
Local Open Scope string_scope.
Local Open Scope list_scope.

(** Token: at_bol, kind == TK_IDENT, spelling; file (by path, as add_input_file keeps one File
    per path, tokenize.c:924-931); is_incl_guard. *)
Record ptok := mkptok { tk : stok; tfile : nat; tguard : bool }.

Definition equal (t : ptok) (s : string) : bool := String.eqb (text (tk t)) s.
Definition pbol (t : ptok) : bool := bol (tk t).
(** preprocess.c:81-83. *)
Definition is_hash (t : ptok) : bool := pbol t && equal t "#".
(** [equal(tok->next, s)] where the list starts at tok->next. *)
Definition eqn (l : list ptok) (s : string) : bool := match l with t :: _ => equal t s | [] => false end.
Definition eqany (l : list ptok) (ss : list string) : bool := existsb (eqn l) ss.

(** preprocess.c:87-94, and the loops at 224-226, 235-236: up to the next line. *)
Fixpoint skip_line (l : list ptok) : list ptok :=
  match l with [] => [] | t :: r => if pbol t then l else skip_line r end.
Fixpoint line_of (l : list ptok) : list stok :=
  match l with [] => [] | t :: r => if pbol t then [] else tk t :: line_of r end.
(** [skip_line(tok->next)] where the list starts at tok: tok is the EOF token when empty. *)
Definition skip_line_next (l : list ptok) : outcome (list ptok) :=
  match l with [] => UB | _ :: r => Ok (skip_line r) end.

(** Macros are those of PpSpec: a table of names, preprocess.c:411-422, 464-467. *)
Definition lookupn {A} (s : nat) (m : list (nat * A)) : option A :=
  match find (fun e => Nat.eqb (fst e) s) m with Some e => Some (snd e) | None => None end.
(** [find_macro(tok)] != NULL where the list starts at tok. *)
Definition find_macro (m : macros) (l : list ptok) : bool :=
  match l with t :: _ => ident (tk t) && is_some (lookup (text (tk t)) m) | [] => false end.

(** CondIncl. [guard]: cond->tok->is_incl_guard, its file and the token after it. *)
Record cond := mkcond { is_else : bool; been_active : bool; guard : bool; gfile : nat; gname : string }.

(** preprocess.c:171-199: [lvl] is the nesting level. *)
Fixpoint skip_cond_incl (lvl : nat) (l : list ptok) : list ptok :=
  match l with
  | [] => []
  | t :: r =>
      if is_hash t then
        if eqany r ["if"; "ifdef"; "ifndef"] then
          match r with [] => [] | _ :: r2 => skip_cond_incl (S lvl) r2 end
        else
          match lvl with
          | S lvl' =>
              if eqn r "endif" then match r with [] => [] | _ :: r2 => skip_cond_incl lvl' r2 end
              else skip_cond_incl lvl r
          | O =>
              if eqany r ["endif"; "else"; "elif"; "elifdef"; "elifndef"] then l
              else skip_cond_incl lvl r
          end
      else skip_cond_incl lvl r
  end.

Record pstate := mkpst {
  pmacros : macros;
  conds : list cond;
  once : list nat;
  guards : list (nat * string);
  out : list stok
}.
Definition set_macros m st := mkpst m (conds st) (once st) (guards st) (out st).
Definition set_conds c st := mkpst (pmacros st) c (once st) (guards st) (out st).

(** include_file, preprocess.c:1083-1111: tokens to read next. *)
Definition set_guard (t : ptok) : ptok := mkptok (tk t) (tfile t) true.
Fixpoint set_guard_last (l : list ptok) : list ptok :=
  match l with [] => [] | [t] => [set_guard t] | t :: r => t :: set_guard_last r end.
Definition guard_shape (l : list ptok) : bool :=
  match l with
  | h :: d :: n :: _ =>
      is_hash h && equal d "ifndef" && ident (tk n) && match rev l with e :: _ => equal e "endif" | [] => false end
  | _ => false
  end.
Definition mark_guard (l : list ptok) : list ptok :=
  if guard_shape l then
    match l with h :: d :: r => h :: set_guard d :: set_guard_last r | _ => l end
  else l.
Definition include_file (e : env) (path : nat) (st : pstate) (cont : list ptok) : outcome (list ptok) :=
  if existsb (Nat.eqb path) (once st) then Ok cont
  else if match lookupn path (guards st) with
          | Some g => is_some (lookup g (pmacros st))
          | None => false
          end then Ok cont
  else do l <- files e path; Ok (mark_guard (map (fun t => mkptok t path false) l) ++ cont).

(** push_cond_incl, preprocess.c:392-402; [tok] is the token kept in the entry, [next] what
    follows it. *)
Definition push_cond (t : ptok) (next : list ptok) (active : bool) (st : pstate) : pstate :=
  set_conds (mkcond false active (tguard t) (tfile t) (match next with n :: _ => text (tk n) | [] => "" end) :: conds st) st.

Definition with_cond (st : pstate) (k : cond -> list cond -> outcome (pstate * list ptok)) : outcome (pstate * list ptok) :=
  match conds st with
  | c :: cs => k c cs
  | [] => Abort
  end.
Definition active_cond (c : cond) := mkcond (is_else c) true false (gfile c) (gname c).
Definition clear_guard (c : cond) := mkcond (is_else c) (been_active c) false (gfile c) (gname c).

(** directives, preprocess.c:1248-1448; [h] is the # and [l] starts at the token after it. Not
    modelled (Abort): #embed, #include_next, #def, #error and unknown directives, which abort in
    the code as well; #line, #pragma other than once and #warning have no effect here. *)
Definition directives (e : env) (h : ptok) (l : list ptok) (st : pstate) : outcome (pstate * list ptok) :=
  match l with
  | [] => Ok (st, [])
  | d :: r =>
      if equal d "include" then
        do p <- resolve e (pmacros st) (tfile h) (line_of r);
        do l' <- include_file e p st (skip_line r);
        Ok (st, l')
      else if equal d "define" then
        match r with
        | n :: r2 => if ident (tk n) then Ok (set_macros ((text (tk n), line_of r2) :: undef (text (tk n)) (pmacros st)) st, skip_line r2) else Abort
        | [] => Abort
        end
      else if equal d "undef" then
        match r with
        | n :: r2 => if ident (tk n) then Ok (set_macros (undef (text (tk n)) (pmacros st)) st, skip_line r2) else Abort
        | [] => Abort
        end
      else if equal d "if" then
        do a <- eval e (pmacros st) (line_of r);
        let tok := skip_line r in
        Ok (push_cond h l a st, if a then tok else skip_cond_incl 0 tok)
      else if equal d "ifdef" then
        let a := find_macro (pmacros st) r in
        do tok <- skip_line_next r;
        Ok (push_cond d r a st, if a then tok else skip_cond_incl 0 tok)
      else if equal d "ifndef" then
        let a := negb (find_macro (pmacros st) r) in
        do tok <- skip_line_next r;
        Ok (push_cond d r a st, if a then tok else skip_cond_incl 0 tok)
      else if equal d "elif" then
        with_cond st (fun c cs =>
          if is_else c then Abort
          else if been_active c then Ok (set_conds (clear_guard c :: cs) st, skip_cond_incl 0 l)
          else
            do a <- eval e (pmacros st) (line_of r);
            if a then Ok (set_conds (active_cond c :: cs) st, skip_line r)
            else Ok (set_conds (clear_guard c :: cs) st, skip_cond_incl 0 (skip_line r)))
      else if equal d "elifdef" then
        with_cond st (fun c cs =>
          if is_else c then Abort
          else if negb (been_active c) && find_macro (pmacros st) r then
            do tok <- skip_line_next r; Ok (set_conds (active_cond c :: cs) st, tok)
          else Ok (set_conds (clear_guard c :: cs) st, skip_cond_incl 0 l))
      else if equal d "elifndef" then
        with_cond st (fun c cs =>
          if is_else c then Abort
          else if negb (been_active c) && negb (find_macro (pmacros st) r) then
            do tok <- skip_line_next r; Ok (set_conds (active_cond c :: cs) st, tok)
          else Ok (set_conds (clear_guard c :: cs) st, skip_cond_incl 0 l))
      else if equal d "else" then
        with_cond st (fun c cs =>
          if is_else c then Abort
          else
            let st' := set_conds (mkcond true (been_active c) false (gfile c) (gname c) :: cs) st in
            let tok := skip_line r in
            Ok (st', if been_active c then skip_cond_incl 0 tok else tok))
      else if equal d "endif" then
        with_cond st (fun c cs =>
          let g := if tguard d && guard c && Nat.eqb (tfile d) (gfile c)
                   then (tfile d, gname c) :: guards st else guards st in
          Ok (mkpst (pmacros st) cs (once st) g (out st), skip_line r))
      else if equal d "pragma" then
        Ok ((if eqn r "once" then mkpst (pmacros st) (conds st) (tfile d :: once st) (guards st) (out st) else st), skip_line (if eqn r "once" then tl r else r))
      else if equal d "line" || equal d "warning" then Ok (st, skip_line r)
      else if existsb (equal d) ["embed"; "include_next"; "def"; "error"] then Abort
      else if pbol d then Ok (st, l)
      else Abort
  end.

(** preprocess2, preprocess.c:1213-1246. *)
Fixpoint run (e : env) (f : nat) (l : list ptok) (st : pstate) : outcome pstate :=
  match f with
  | O => UB
  | S f' =>
      match l with
      | [] => Ok st
      | t :: r =>
          if is_hash t then do q <- directives e t r st; run e f' (snd q) (fst q)
          else run e f' r (mkpst (pmacros st) (conds st) (once st) (guards st) (out st ++ [tk t]))
      end
  end.
(** preprocess, preprocess.c:1921-1930: an open conditional at the end is an error. *)
Definition preprocess (e : env) (f : nat) (l : list stok) (m : macros) : outcome pstate :=
  do st <- run e f (map (fun t => mkptok t 0 false) l) (mkpst m [] [] [] []);
  match conds st with [] => Ok st | _ => Abort end.
