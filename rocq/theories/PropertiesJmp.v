(** C61: the structure of statements and the targets of jumps. *)
From Coq Require Import Ascii String ZArith List Bool.
From Verif Require Import JmpSpec JmpModel JmpBody.
Import ListNotations.
Local Open Scope string_scope.
Local Open Scope Z_scope.
Local Open Scope list_scope.

(** A body is accepted exactly when it is a block of the grammar in which every jump has a target, case and default
    labels are in a switch and no switch has two defaults. *)
Theorem C61_accepts : forall t r, (exists l, body t = Ok (l, r)) <->
  (exists ss, LB :: t = pr (SBlock ss) ++ r /\ grammar (SBlock ss) = true /\ valid (SBlock ss)).
Proof. exact body_iff. Qed.
Print Assumptions C61_accepts.

(** The tree is the one the tokens are written from. *)
Theorem C61_tree : forall t l r, body t = Ok (l, r) -> LB :: t = pr (erase (NBlock l)) ++ r /\ grammar (erase (NBlock l)) = true /\ valid (erase (NBlock l)).
Proof. exact body_stmt. Qed.
Print Assumptions C61_tree.

(** There is one such tree. *)
Theorem C61_unique : forall ss ss' r r', pr (SBlock ss) ++ r = pr (SBlock ss') ++ r' -> grammar (SBlock ss) = true -> grammar (SBlock ss') = true ->
  valid (SBlock ss) -> valid (SBlock ss') -> ss = ss' /\ r = r'.
Proof. exact unambiguous. Qed.
Print Assumptions C61_unique.

(** Unique labels are unique, and every label of the source has one. *)
Theorem C61_labels : forall t l r, body t = Ok (l, r) -> NoDup (map fst (places (NBlock l))) /\
  flat_map (fun q => match snd q with PLab ls => ls | _ => [] end) (places (NBlock l)) = labels (erase (NBlock l)).
Proof. exact body_places. Qed.
Print Assumptions C61_labels.

(** Every goto, break and continue goes where C says. *)
Theorem C61_jumps : forall t l r, body t = Ok (l, r) ->
  Forall2 (right_jump (places (NBlock l))) (gotos (NBlock l)) (jumps [] [] (erase (NBlock l))).
Proof. exact body_jumps. Qed.
Print Assumptions C61_jumps.

(** Every switch has the case and default labels C says. *)
Theorem C61_switches : forall t l r, body t = Ok (l, r) ->
  Forall2 (right_table (places (NBlock l))) (tables (NBlock l)) (switches (erase (NBlock l))).
Proof. exact body_tables. Qed.
Print Assumptions C61_switches.

(** Reading ends. *)
Theorem C61_ends : forall t, body t <> Fuel.
Proof. exact body_ends. Qed.
Print Assumptions C61_ends.

(** [if (1) if (2) 3; else 4; a: while (5) { for (;;) { switch (6) { case 7: break a; default: continue; } break; } }
    goto a;] *)
Definition loops : list tok :=
  [KIf 1; LP; Ex 1; RP; KIf 2; LP; Ex 2; RP; Ex 3; Semi; KElse; Ex 4; Semi;
   Id 0 "a"; Colon; KWhile 3; LP; Ex 5; RP; LB; KFor 4; LP; Semi; Semi; RP; LB;
   KSwitch 5; LP; Ex 6; RP; LB; KCase 6; Ex 7; Colon; KBreak 7; Id 0 "a"; Semi; KDefault 8; Colon; KCont 9; Semi; RB;
   KBreak 10; Semi; RB; RB; KGoto 11; Id 0 "a"; Semi; RB].
Definition loops_stmt : list stmt :=
  [SIf 1 ([], Exp 1) [] (SElse 2 ([], Exp 2) [] (SExp (Some 3)) [] (SExp (Some 4)));
   SLabs (LId 0 "a") [];
   SWhile 3 ([], Exp 5) [] (SBlock [SFor 4 (FExp None) None None [] (SBlock
     [SSwitch 5 ([], Exp 6) [] (SBlock [SLabs (LCase 6 7 None) []; SBreak 7 (Some (0, "a")); SLabs (LDef 8) []; SCont 9 None]);
      SBreak 10 None])]);
   SGoto 11 0 "a"].
Definition read (t : list tok) : stmt := match body t with Ok (l, _) => erase (NBlock l) | _ => SExp None end.
Example C61_ex_tree : read loops = SBlock loops_stmt. Proof. vm_compute; reflexivity. Qed.
Example C61_ex_grammar : grammar (SBlock loops_stmt) = true. Proof. vm_compute; reflexivity. Qed.
Example C61_ex_valid : valid (SBlock loops_stmt).
Proof. destruct (body loops) as [[l r]| |] eqn:E; [|discriminate E|discriminate E]. rewrite <- C61_ex_tree. unfold read. rewrite E. apply (C61_tree _ _ _ E). Qed.
(** The break of the switch leaves the while loop, the continue is of the for loop. *)
Example C61_ex_jumps : jumps [] [] (SBlock loops_stmt) =
  [(7, Some (AfterOf 3)); (9, Some (NextOf 4)); (10, Some (AfterOf 4)); (11, Some (Labelled "a"))].
Proof. vm_compute; reflexivity. Qed.
Example C61_ex_gotos : match body loops with Ok (l, _) => Some (gotos (NBlock l), places (NBlock l)) | _ => None end =
  Some ([(7, Some 1%nat); (9, Some 4%nat); (10, Some 3%nat); (11, Some 0%nat)],
        [(0%nat, PLab [LId 0 "a"]); (1%nat, PBrk 3); (2%nat, PCont 3); (3%nat, PBrk 4); (4%nat, PCont 4);
         (5%nat, PBrk 5); (6%nat, PLab [LCase 6 7 None]); (7%nat, PLab [LDef 8])]).
Proof. vm_compute; reflexivity. Qed.
Example C61_ex_tables : match body loops with Ok (l, _) => Some (tables (NBlock l)) | _ => None end = Some [(5, ([(6, 6%nat)], Some (8, 7%nat)))].
Proof. vm_compute; reflexivity. Qed.
Example C61_ex_switches : switches (SBlock loops_stmt) = [(5, [LCase 6 7 None; LDef 8])]. Proof. vm_compute; reflexivity. Qed.
(** A break, a continue and a case of nothing, a continue of a switch, two defaults, a label that is not of a loop. *)
Example C61_ex_rejected : map body
  [[KBreak 1; Semi; RB]; [KCont 1; Semi; RB]; [KCase 1; Ex 1; Colon; Semi; RB];
   [KSwitch 1; LP; Ex 1; RP; KCont 1; Semi; RB];
   [KSwitch 1; LP; Ex 1; RP; LB; KDefault 1; Colon; Semi; KDefault 2; Colon; Semi; RB; RB];
   [Id 0 "a"; Colon; Semi; KWhile 1; LP; Ex 1; RP; KBreak 2; Id 1 "a"; Semi; RB];
   [KGoto 1; Id 1 "b"; Semi; Id 0 "a"; Colon; Semi; RB]] = [Err; Err; Err; Err; Err; Err; Err].
Proof. vm_compute; reflexivity. Qed.
(** A label at the end of a block, labels before a declaration, a case inside a loop inside the switch. *)
Example C61_ex_labels : read [KSwitch 1; LP; Ex 1; RP; KDo 2; KCase 3; Ex 2; Colon; Id 0 "a"; Colon; KBreak 4; Semi; KWhile 5; LP; Ex 3; RP; Semi;
                              Id 1 "b"; Colon; Ty 1; Dc 1; Semi; Id 2 "c"; Colon; RB] =
  SBlock [SSwitch 1 ([], Exp 1) [] (SDo 2 [LCase 3 2 None; LId 0 "a"] (SBreak 4 None) 5 3);
          SLabs (LId 1 "b") []; SDecl 1 [1]; SLabs (LId 2 "c") []].
Proof. vm_compute; reflexivity. Qed.

(** Conditions C2Y does not have are taken: [if (int a = 1 a);], and two declarations. *)
Theorem C61_condition_refuted : ~ (forall t l r, body t = Ok (l, r) -> standard (erase (NBlock l)) = true).
Proof.
  intros H. specialize (H [KIf 1; LP; Ty 1; Dc 1; Ex 2; RP; Semi; RB] _ _ eq_refl). discriminate H.
Qed.
Print Assumptions C61_condition_refuted.

(** 6.8.2 p2: label names shall be unique within a function. They need not be: [a: 1; a: 2; goto a;] goes to the second. *)
Theorem C61_names_refuted : ~ (forall t l r, body t = Ok (l, r) -> NoDup (names (labels (erase (NBlock l))))).
Proof.
  intros H. specialize (H [Id 0 "a"; Colon; Ex 1; Semi; Id 1 "a"; Colon; Ex 2; Semi; KGoto 1; Id 0 "a"; Semi; RB] _ _ eq_refl).
  inversion H as [|x l A B]. apply A. left. reflexivity.
Qed.
Print Assumptions C61_names_refuted.
