(** An interpreter for statements, used to compute with the examples; [interp_exec] shows it
    agrees with the specification. *)
From Coq Require Import ZArith List Bool.
From Verif Require Import IntSpec StmtSpec.
Import ListNotations.
Local Open Scope Z_scope.

Definition stays (o : ending) : bool := match o with Normal | Continue => true | _ => false end.
Lemma stays_goes o : stays o = true -> goes_on o.
Proof. destruct o; try discriminate; [left|right]; reflexivity. Qed.

Fixpoint interp (rt : ityp) (f : nat) (env : nat -> Z) (s : stmt) {struct f} : option ((nat -> Z) * ending) :=
  match f with
  | O => None
  | S f =>
    match s with
    | SSkip => Some (env, Normal)
    | SExpr a => match effect env a with Some env' => Some (env', Normal) | None => None end
    | SSeq a b =>
        match interp rt f env a with
        | Some (env1, Normal) => interp rt f env1 b
        | r => r
        end
    | SIf c a =>
        match ceval env c with
        | Some v => if v =? 0 then Some (env, Normal) else interp rt f env a
        | None => None
        end
    | SIfElse c a b =>
        match ceval env c with
        | Some v => interp rt f env (if v =? 0 then b else a)
        | None => None
        end
    | SFor i c n b => match effect env i with Some env1 => iter rt f env1 c n b | None => None end
    | SDo b c =>
        match interp rt f env b with
        | Some (env1, o) =>
            if stays o then
              match ceval env1 c with
              | Some v => if v =? 0 then Some (env1, Normal) else interp rt f env1 (SDo b c)
              | None => None
              end
            else match o with Return v => Some (env1, Return v) | _ => Some (env1, Normal) end
        | None => None
        end
    | SBreak => Some (env, Break)
    | SContinue => Some (env, Continue)
    | SReturn None => Some (env, Return None)
    | SReturn (Some e) =>
        match ceval env e with Some v => Some (env, Return (Some (conv rt v))) | None => None end
    end
  end
with iter (rt : ityp) (f : nat) (env : nat -> Z) (c : option exp) (n : eff) (b : stmt) {struct f} : option ((nat -> Z) * ending) :=
  match f with
  | O => None
  | S f =>
    match controls env c with
    | Some true =>
        match interp rt f env b with
        | Some (env1, o) =>
            if stays o then
              match effect env1 n with Some env2 => iter rt f env2 c n b | None => None end
            else match o with Return v => Some (env1, Return v) | _ => Some (env1, Normal) end
        | None => None
        end
    | Some false => Some (env, Normal)
    | None => None
    end
  end.

Lemma interp_iter rt f : (forall env s env' o, interp rt f env s = Some (env', o) -> exec rt env s env' o) /\
  (forall env c n b env' o, iter rt f env c n b = Some (env', o) -> loop rt env c n b env' o).
Proof.
  induction f as [|f [IH1 IH2]]; [split; discriminate|]. split.
  - intros env s env' o H. destruct s; cbn [interp] in H.
    + injection H as <- <-. constructor.
    + destruct (effect env x) eqn:E; [|discriminate]. injection H as <- <-. constructor. exact E.
    + destruct (interp rt f env s1) as [[env1 o1]|] eqn:E; [|discriminate]. apply IH1 in E.
      destruct o1; try (injection H as <- <-; apply ex_seq_end; [exact E|discriminate]).
      apply IH1 in H. eapply ex_seq; eauto.
    + destruct (ceval env c) as [v|] eqn:E; [|discriminate]. destruct (Z.eqb_spec v 0) as [->|N].
      * injection H as <- <-. apply ex_if_not. exact E.
      * eapply ex_if; eauto.
    + destruct (ceval env c) as [v|] eqn:E; [|discriminate]. destruct (Z.eqb_spec v 0) as [->|N].
      * apply ex_else; auto.
      * eapply ex_then; eauto.
    + destruct (effect env init) eqn:E; [|discriminate]. eapply ex_for; eauto.
    + destruct (interp rt f env s) as [[env1 o1]|] eqn:E; [|discriminate]. apply IH1 in E.
      destruct (stays o1) eqn:ST.
      * apply stays_goes in ST. destruct (ceval env1 c) as [v|] eqn:Ev; [|discriminate].
        destruct (Z.eqb_spec v 0) as [->|N].
        -- injection H as <- <-. eapply ex_do_end; eauto.
        -- eapply ex_do_again; eauto.
      * destruct o1; try discriminate ST; injection H as <- <-; [apply ex_do_break|apply ex_do_return]; exact E.
    + injection H as <- <-. constructor.
    + injection H as <- <-. constructor.
    + destruct e as [e|]; [|injection H as <- <-; constructor].
      destruct (ceval env e) eqn:E; [|discriminate]. injection H as <- <-. constructor. exact E.
  - intros env c n b env' o H. cbn [iter] in H. destruct (controls env c) as [[|]|] eqn:E; [|injection H as <- <-; constructor; exact E|discriminate].
    destruct (interp rt f env b) as [[env1 o1]|] eqn:E1; [|discriminate]. apply IH1 in E1.
    destruct (stays o1) eqn:ST.
    + apply stays_goes in ST. destruct (effect env1 n) eqn:E2; [|discriminate]. eapply lp_again; eauto.
    + destruct o1; try discriminate ST; injection H as <- <-; [apply lp_break|apply lp_return]; auto.
Qed.

Lemma interp_exec rt f env s env' o : interp rt f env s = Some (env', o) -> exec rt env s env' o.
Proof. apply interp_iter. Qed.
