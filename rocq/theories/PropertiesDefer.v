(** C32: deferred statements, cleanup functions and variable length arrays are undone in reverse order on every way out. *)
From Coq Require Import List Bool Arith Lia.
From Verif Require Import Base DeferSpec DeferModel DeferProofs DeferMain DeferFinal.
Import ListNotations.

(** On every path through the code of a function, however conditions turn out and including break, continue, goto and return: an action that is run is
    the most recently registered one that has not been run, the stack pointer is only set back to an array that is still there, nothing is
    pending at the end, every expression is evaluated with exactly those actions pending that the scope rules say, and no label is
    defined twice. *)
Theorem C32_discipline : forall dz body u c code, func dz body u c = Ok code -> defers_i body -> cases_i dz None body [] -> NoDup (vlas_i body) ->
  NoDup (labs code) /\ forall st, steps code (code, []) st -> fine code (act_i dz body []) st.
Proof. exact discipline. Qed.
Print Assumptions C32_discipline.

(** [{ int a[n]; defer e1; l: for (;; e5) { int b[n], c[m]; defer { if (x) goto l; e2; } if (x) break; if (x) continue; e3; if (x) return; }
      switch (x) { case 1: e4; { clean int v; break; } default: goto l; } e6; }] *)
Definition ex_body : items :=
  IDecl [] true [EVla 1]
     (ICons [] (SDefer 1 [] (SExpr 1))
     (ICons [LName 7] (SFor [] (Some []) (Some 5) [] (SBlock
     (IDecl [] true [EVla 2; EVla 3]
     (ICons [] (SDefer 2 [] (SBlock (ICons [] (SIf [] [] (SGoto 7)) (ICons [] (SExpr 2) (INil [])))))
     (ICons [] (SIf [] [] (SJump false None))
     (ICons [] (SIf [] [] (SJump true None))
     (ICons [] (SExpr 3)
     (ICons [] (SIf [] [] SReturn)
     (INil [])))))))))
     (ICons [] (SSwitch [] [] (SBlock
     (ICons [LCase false] (SExpr 4)
     (ICons [] (SBlock (IDecl [] true [EClean 4] (ICons [] (SJump false None) (INil []))))
     (ICons [LCase true] (SGoto 7)
     (INil []))))))
     (ICons [] (SExpr 6)
     (INil []))))).
Lemma ex_vlas : NoDup (vlas_i ex_body).
Proof. cbn. repeat constructor; cbn; intuition discriminate. Qed.
Lemma ex_cases : cases_i true None ex_body [].
Proof. cbn. unfold case_ok. repeat split; intros d H; cbn in H; intuition discriminate. Qed.
Example C32_example : exists code, func true ex_body 0 0 = Ok code /\
  firstn 20 code = [Reg (EVla 1); Reg (EDefer 1); Lab (LU 0); Lab (LBegin 0); Br (LU 1); Reg (EVla 2); Reg (EVla 3); Reg (EDefer 2);
    Br (LElse 1); Run (EDefer 2); Br (LElse 2); SetSp (Some 1); Jmp (LU 0); Lab (LElse 2); Act 2; SetSp (Some 1); Jmp (LU 1); Lab (LElse 1); Br (LElse 3); Run (EDefer 2)] /\
  In (3, [EDefer 2; EVla 3; EVla 2; EDefer 1; EVla 1]) (act_i true ex_body []) /\
  NoDup (labs code) /\ forall st, steps code (code, []) st -> fine code (act_i true ex_body []) st.
Proof.
  destruct (func true ex_body 0 0) as [code| |] eqn:E; [|vm_compute in E; discriminate..].
  exists code. split; [reflexivity|]. split; [vm_compute in E; injection E as <-; reflexivity|]. split; [vm_compute; tauto|].
  apply (C32_discipline true ex_body 0 0 code E); [cbn; tauto|exact ex_cases|exact ex_vlas].
Qed.

(** Without the condition on case labels: [switch (x) { defer e1; do { case 1: e2; } while (x); }]. The check that there is no defer statement
    between the switch and the case label looks at the innermost loop or switch, which is the loop. The deferred statement is run without
    having been reached. *)
Definition bad_switch : items :=
  ICons [] (SSwitch [] [] (SBlock (ICons [] (SDefer 1 [] (SExpr 1)) (ICons [] (SDo [] (SBlock (ICons [LCase false] (SExpr 2) (INil [])))) (INil []))))) (INil []).
Theorem C32_switch_refuted : exists code st, func true bad_switch 0 0 = Ok code /\ defers_i bad_switch /\ NoDup (vlas_i bad_switch) /\
  NoDup (labs code) /\ steps code (code, []) st /\ ~ fine code (act_i true bad_switch []) st /\ exists r, st = (Run (EDefer 1) :: r, []).
Proof.
  destruct (func true bad_switch 0 0) as [code| |] eqn:E; [|vm_compute in E; discriminate..].
  vm_compute in E. injection E as <-.
  eexists _, _. split; [reflexivity|]. split; [cbn; tauto|]. split; [constructor|].
  split; [cbn; repeat constructor; cbn; intuition discriminate|]. split; [|split].
  - eapply ss_step; [apply st_br; reflexivity|]. eapply ss_step; [apply st_act|]. eapply ss_step; [apply st_lab|]. eapply ss_step; [apply st_br_no|].
    eapply ss_step; [apply st_lab|]. apply ss_refl.
  - cbn. intros (s' & H). discriminate.
  - eexists. reflexivity.
Qed.
Print Assumptions C32_switch_refuted.

(** Without the condition on deferred statements: [{ defer do e1; while (x); if (x) return; }]. The labels of a loop are made when it is parsed, but
    the deferred statement is emitted for each way out, so that the same label is defined twice. *)
Definition bad_loop : items :=
  ICons [] (SDefer 1 [] (SDo [] (SExpr 1))) (ICons [] (SIf [] [] SReturn) (INil [])).
Theorem C32_defer_loop_refuted : exists code, func true bad_loop 0 0 = Ok code /\ cases_i true None bad_loop [] /\ NoDup (vlas_i bad_loop) /\ ~ NoDup (labs code).
Proof.
  eexists. split; [vm_compute; reflexivity|]. split; [cbn; unfold case_ok; repeat split; intros d H; destruct H|]. split; [constructor|].
  cbn. intros H. inversion H as [|? ? N1 H1]; subst. inversion H1 as [|? ? N2 H2]; subst. apply N2. cbn. tauto.
Qed.
Print Assumptions C32_defer_loop_refuted.
