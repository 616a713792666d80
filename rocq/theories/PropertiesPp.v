(** C10, C49: conditional inclusion and include-once bookkeeping. *)
From Coq Require Import Ascii String ZArith List Bool.
From Verif Require Import Base PpSpec PpModel PpProofs.
Import ListNotations.
Local Open Scope string_scope.
Local Open Scope list_scope.

(** *** C10: the groups kept are those the standard selects *)
(** [tree p] is the structure of file p, file 0 is the main file. [sem] processes the first group
    of each conditional whose condition holds and no other, evaluates no condition after that one
    or inside a skipped group, and reads included files afresh unless marked #pragma once. *)
Theorem C10_conditional_inclusion : forall e tree, (forall p, files e p = Ok (print (tree p))) -> (forall p, wf (tree p)) ->
  forall n m s', sem e (sem_file e tree n) 0 (tree 0) (mksst m [] []) = Ok s' ->
  exists f st', (forall f', (f <= f')%nat -> preprocess e f' (print (tree 0)) m = Ok st') /\ out st' = sout s' /\ pmacros st' = smacros s'.
Proof. exact preprocess_ok. Qed.
Print Assumptions C10_conditional_inclusion.
(** An error of a directive that is reached is reported. *)
Theorem C10_errors_reported : forall e tree, (forall p, files e p = Ok (print (tree p))) -> (forall p, wf (tree p)) ->
  forall n m, sem e (sem_file e tree n) 0 (tree 0) (mksst m [] []) = Abort -> exists f, preprocess e f (print (tree 0)) m = Abort.
Proof. exact preprocess_abort. Qed.
Print Assumptions C10_errors_reported.
(** A file is only accepted if its #if, #ifdef, #ifndef and #endif match. *)
Theorem C10_balanced : forall e, (forall p l, files e p = Ok l -> lines_ok l = true /\ balanced 0 l = true) ->
  forall f l m st, lines_ok l = true -> preprocess e f l m = Ok st -> balanced 0 l = true.
Proof. exact preprocess_balanced. Qed.
Print Assumptions C10_balanced.

(** Words of a line. *)
Definition word (b : bool) (s : string) : stok :=
  mkstok b (match s with String c _ => Nat.leb 65 (nat_of_ascii c) | EmptyString => false end) s.
Definition line (l : list string) : list stok :=
  match l with [] => [] | h :: r => word true h :: map (word false) r end.
Definition lines (l : list (list string)) : list stok := flat_map line l.
Definition ln (l : list string) : items stok -> items stok := ILine (line l).
Definition di (l : list string) : items stok -> items stok :=
  match l with d :: r => IDir (word true "#") (word false d) (map (word false) r) | [] => fun t => t end.
Definition co (l : list string) (g : items stok) (t : tail stok) (rest : items stok) : items stok :=
  match l with d :: r => ICond (word true "#") (word false d) (map (word false) r) g t rest | [] => rest end.
Definition hs := word true "#".
Definition endif := TEnd hs (word false "endif") [].
(** #if 1 holds, #if 0 does not, anything else is an error; #include 1 names file 1. *)
Definition env1 (fs : nat -> list stok) : env :=
  mkenv (fun _ r => match r with [t] => if String.eqb (text t) "1" then Ok true else if String.eqb (text t) "0" then Ok false else Abort | _ => Abort end)
        (fun _ _ r => match r with [t] => if String.eqb (text t) "1" then Ok 1%nat else if String.eqb (text t) "2" then Ok 2%nat else Abort | _ => Abort end)
        (fun p => Ok (fs p)).
Definition ex_tree (p : nat) : items stok :=
  match p with
  | O =>
      di ["include"; "1"] (
      di ["include"; "1"] (
      co ["if"; "0"] (co ["if"; "?"] (ln ["a"] INil) endif INil)
        (TElif hs (word false "elifdef") [word false "G"] (ln ["b"] INil)
          (TElif hs (word false "elif") [word false "?"] (ln ["c"] INil)
            (TElse hs (word false "else") [] (ln ["d"] INil) hs (word false "endif") [])))
      (ln ["e"] INil)))
  | S O => co ["ifndef"; "G"] (di ["define"; "G"; "1"] (ln ["body"; ";"] INil)) endif INil
  | _ => INil
  end.
Definition ex_env := env1 (fun p => print (ex_tree p)).
Lemma wf_ex : forall p, wf (ex_tree p).
Proof.
  intros p. destruct p as [|[|p]]; [|vm_compute|exact Logic.I].
  - vm_compute. repeat split; try congruence; try (repeat constructor); try tauto;
      try (intros [X|X]; [discriminate|tauto || (repeat (destruct X as [X|X]; [discriminate|]); destruct X)]);
      try (right; eexists _, _; split; reflexivity); try (left; tauto);
      try (eexists _, _; repeat split; congruence || (repeat constructor)); intuition discriminate.
  - repeat split; try congruence; try (repeat constructor); try tauto;
      try (right; eexists _, _; split; reflexivity);
      try (eexists _, _; repeat split; congruence || (repeat constructor)); intuition discriminate.
Qed.
Example ex_cond_inclusion :
  sem ex_env (sem_file ex_env ex_tree 3) 0 (ex_tree 0) (mksst [] [] []) = Ok (mksst [("G", [word false "1"])] [] (lines [["body"; ";"]; ["b"]; ["e"]])).
Proof. vm_compute. reflexivity. Qed.
Example ex_cond_inclusion_run : exists st, preprocess ex_env 50 (print (ex_tree 0)) [] = Ok st /\ out st = lines [["body"; ";"]; ["b"]; ["e"]] /\ guards st = [(1%nat, "G")].
Proof. eexists. split; [vm_compute; reflexivity|]. split; reflexivity. Qed.
Example ex_balanced : lines_ok (print (ex_tree 0)) = true /\ balanced 0 (print (ex_tree 0)) = true /\
  lines_ok (lines [["#"; "if"; "0"]; ["x"]]) = true /\ balanced 0 (lines [["#"; "if"; "0"]; ["x"]]) = false /\
  preprocess (env1 (fun _ => [])) 50 (lines [["#"; "if"; "0"]; ["x"]]) [] = Abort /\
  preprocess (env1 (fun _ => [])) 50 (lines [["#"; "endif"]]) [] = Abort /\
  preprocess (env1 (fun _ => [])) 50 (lines [["#"; "if"; "1"]; ["#"; "else"]; ["#"; "else"]; ["#"; "endif"]]) [] = Abort.
Proof. vm_compute. repeat split; reflexivity. Qed.

(** A null directive swallows the line after it when that line begins with the name of a
    directive: here the line [else x] is text, yet it is taken for #else. *)
Theorem C10_null_directive_refuted :
  exists l st, l = lines [["#"; "if"; "1"]; ["a"]; ["#"]; ["else"; "x"]; ["b"]; ["#"; "endif"]] /\
    preprocess (env1 (fun _ => [])) 50 l [] = Ok st /\ out st = line ["a"].
Proof. eexists _, _. split; [reflexivity|]. split; [vm_compute; reflexivity|reflexivity]. Qed.
(** A missing operand is taken from the next line: the #undef line below has none, yet no error
    is reported and the text line X disappears. *)
Theorem C10_missing_operand_refuted :
  exists l st, l = lines [["#"; "undef"]; ["X"; "+"; "1"]; ["b"]] /\
    preprocess (env1 (fun _ => [])) 50 l [] = Ok st /\ out st = line ["b"].
Proof. eexists _, _. split; [reflexivity|]. split; [vm_compute; reflexivity|reflexivity]. Qed.
(** #ifdef as the last token of the main file: skip_line(tok->next->next) follows the null next
    pointer of the EOF token. *)
Theorem C10_ifdef_at_end_refuted : preprocess (env1 (fun _ => [])) 50 (lines [["x"]; ["#"; "ifdef"]]) [] = UB.
Proof. vm_compute. reflexivity. Qed.

(** *** C49: a guard is only recorded for a file that contributes nothing once it is defined *)
Theorem C49_guard_sound : forall e tree, (forall p, files e p = Ok (print (tree p))) -> (forall p, wf (tree p)) ->
  forall n m s', sem e (sem_file e tree n) 0 (tree 0) (mksst m [] []) = Ok s' ->
  exists f st', (forall f', (f <= f')%nat -> preprocess e f' (print (tree 0)) m = Ok st') /\
    forall p g, In (p, g) (guards st') -> forall inc s, is_some (lookup g (smacros s)) = true -> sem e inc p (tree p) s = Ok s.
Proof. exact guards_sound. Qed.
Print Assumptions C49_guard_sound.
Example ex_guard_sound : exists st, preprocess ex_env 50 (print (ex_tree 0)) [] = Ok st /\ In (1%nat, "G") (guards st).
Proof. eexists. split; [vm_compute; reflexivity|left; reflexivity]. Qed.

(** Files whose conditionals are not balanced defeat the bookkeeping: the #endif that closes the
    guard of file 1 is not its last one, as file 2 opens a conditional that file 1 closes. The
    second inclusion, with the guard defined, would contribute x, but is skipped. *)
Definition unbal (p : nat) : list stok :=
  match p with
  | 1%nat => lines [["#"; "ifndef"; "G"]; ["#"; "include"; "2"]; ["#"; "endif"]; ["x"]; ["#"; "endif"]]
  | 2%nat => lines [["#"; "if"; "1"]]
  | _ => []
  end.
Theorem C49_unbalanced_refuted :
  exists st st2, preprocess (env1 unbal) 50 (lines [["#"; "include"; "1"]; ["#"; "define"; "G"]; ["#"; "include"; "1"]]) [] = Ok st /\
    out st = line ["x"] /\ guards st = [(1%nat, "G")] /\
    run (env1 unbal) 50 (map (fun t => mkptok t 1 false) (unbal 1)) (mkpst (pmacros st) [mkcond false true false 0 ""] [] [] (out st)) = Ok st2 /\
    out st2 = line ["x"] ++ line ["x"].
Proof. eexists _, _. split; [vm_compute; reflexivity|]. repeat split; vm_compute; reflexivity. Qed.
