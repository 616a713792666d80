(** What the parser accepts, in texts without names of types, is a phrase that stands for the tree it builds. *)
From Coq Require Import String ZArith List Bool Lia.
From Verif Require Import Base DeclSpec DeclModel ExprSpec ExprModel ExprEqs.
Import ListNotations.
Local Open Scope string_scope.
Local Open Scope list_scope.

Lemma pbind_inv {A B} (m : pres A) (k : A -> pres B) v : pbind m k = POk v -> exists a, m = POk a /\ k a = POk v.
Proof. destruct m as [a| |]; cbn [pbind]; intros H; try discriminate H. exists a. auto. Qed.
Lemma punct_inv s toks r : punct s toks = Some r -> toks = TP s :: r.
Proof.
  destruct toks as [|[x| | | | |] t]; cbn [punct]; intros H; try discriminate H.
  destruct (String.eqb s x) eqn:E; [|discriminate H]. apply String.eqb_eq in E. injection H as ->. subst x. reflexivity.
Qed.
Lemma skip_inv s toks r : skip s toks = POk r -> toks = TP s :: r.
Proof. unfold skip. destruct (punct s toks) eqn:E; intros H; [|discriminate H]. injection H as ->. exact (punct_inv _ _ _ E). Qed.
Lemma find_inv {A} (l : list (string * A)) toks o r : find_op l toks = Some (o, r) ->
  exists s, In (s, o) l /\ toks = TP s :: r.
Proof.
  induction l as [|[s a] l IH]; cbn [find_op]; [discriminate|].
  destruct (punct s toks) eqn:E; intros H.
  - injection H as -> ->. exists s. split; [left; reflexivity | exact (punct_inv _ _ _ E)].
  - destruct (IH H) as (s' & IN & ->). exists s'. split; [right; exact IN | reflexivity].
Qed.

Section Sound.
Variable tdef : string -> option dtype.
Variables c23 auty : bool.
Notation p_expr := (expr tdef c23 auty).
Notation p_assign := (assign tdef c23 auty).
Notation p_conditional := (conditional tdef c23 auty).
Notation p_binary := (binary tdef c23 auty).
Notation p_loop := (binary_loop tdef c23 auty).
Notation p_tparen := (typename_paren tdef c23 auty).
Notation p_cast := (cast tdef c23 auty).
Notation p_unary := (unary tdef c23 auty).
Notation p_postfix := (postfix tdef c23 auty).
Notation p_funargs := (funargs tdef c23 auty).
Notation p_primary := (primary tdef c23 auty).
Notation ex := (ex tdef c23 true).
Notation args := (args tdef c23 true).

Definition clean (toks : list tok) : Prop := Forall (fun t => word tdef t = TStop) toks.
Lemma clean_app a b : clean (a ++ b) -> clean b.
Proof. intros H. apply Forall_app in H. apply H. Qed.
Lemma clean_tl a b : clean (a :: b) -> clean b.
Proof. intros H. inversion H. assumption. Qed.
Lemma clean_type toks : clean toks -> is_typename tdef toks = false.
Proof. destruct toks as [|t r]; [reflexivity|]. intros H. inversion H as [|x l E _]. subst. cbn. rewrite E. reflexivity. Qed.
Lemma tparen_none f toks o : clean toks -> p_tparen f toks = POk o -> o = None.
Proof.
  destruct f as [|f]; [discriminate|]. rewrite typename_paren_S. intros C.
  destruct (punct "(" toks) eqn:E; [|intros H; congruence]. apply punct_inv in E. subst toks.
  rewrite (clean_type _ (clean_tl _ _ C)). congruence.
Qed.

Definition nt_of (l : nat) : nt :=
  match l with
  | 0 => LOr | 1 => LAnd | 2 => BOr | 3 => BXor | 4 => BAnd | 5 => Eql | 6 => Rel | 7 => Shift | 8 => Add | 9 => Mul
  | _ => Cast
  end.
Lemma nt_operand l : l < 10 -> operand (nt_of l) = Some (nt_of (S l)).
Proof. intros H. do 10 (destruct l as [|l]; [reflexivity|]). lia. Qed.
Lemma nt_ops l s o : In (s, o) (level_ops l) -> In (s, o) (operators (nt_of l)).
Proof.
  intros H. do 10 (destruct l as [|l]; [cbn in H |- *; tauto|]). contradiction H.
Qed.

Definition phrase (n : nt) (toks : list tok) (a : etree) (r : list tok) : Prop :=
  exists ts, toks = ts ++ r /\ ex n ts a.
Record sound (f : nat) : Prop := {
  so_expr : forall toks a r, clean toks -> p_expr f toks = POk (a, r) -> phrase Expr toks a r;
  so_assign : forall toks a r, clean toks -> p_assign f toks = POk (a, r) -> phrase Asg toks a r;
  so_cond : forall toks a r, clean toks -> p_conditional f toks = POk (a, r) -> phrase Cond toks a r;
  so_bin : forall l toks a r, l <= 10 -> clean toks -> p_binary f l toks = POk (a, r) -> phrase (nt_of l) toks a r;
  so_loop : forall l toks a b r us, l < 10 -> clean toks -> p_loop f l a toks = POk (b, r) -> ex (nt_of l) us a ->
    exists ts, toks = ts ++ r /\ ex (nt_of l) (us ++ ts) b;
  so_cast : forall toks a r, clean toks -> p_cast f toks = POk (a, r) -> phrase Cast toks a r;
  so_unary : forall toks a r, clean toks -> p_unary f toks = POk (a, r) -> phrase Unary toks a r;
  so_post : forall toks a b r us, clean toks -> p_postfix f a toks = POk (b, r) -> ex Post us a ->
    exists ts, toks = ts ++ r /\ ex Post (us ++ ts) b;
  so_args : forall (first : bool) toks bs r, clean toks -> p_funargs f first toks = POk (bs, r) ->
    if first then exists ts, toks = ts ++ TP ")" :: r /\ args ts bs
    else (bs = [] /\ toks = TP ")" :: r) \/
         (exists ts b bs', bs = b :: bs' /\ toks = TP "," :: ts ++ TP ")" :: r /\ args ts bs);
  so_prim : forall toks a r, clean toks -> p_primary f toks = POk (a, r) -> phrase Prim toks a r
}.

Ltac inv_bind H x y E := apply pbind_inv in H; destruct H as [[x y] [E H]].
Ltac tac := repeat rewrite <- app_assoc; cbn [app]; repeat rewrite <- app_assoc; reflexivity.

Lemma sound_all : forall f, sound f.
Proof.
  induction f as [|f [SE SA SC SB SL SK SU SP SR SM]].
  { constructor; try discriminate. }
  constructor.
  - intros toks a r C H. rewrite expr_S in H. inv_bind H b r1 E.
    destruct (SA _ _ _ C E) as (ts & -> & X). apply clean_app in C.
    destruct (punct "," r1) as [r2|] eqn:P.
    + apply punct_inv in P. subst r1. inv_bind H c r3 E2. injection H as <- <-.
      destruct (SE _ _ _ (clean_tl _ _ C) E2) as (us & -> & Y).
      exists (ts ++ TP "," :: us). split; [tac | apply ex_comma; assumption].
    + injection H as -> ->. exists ts. split; [reflexivity | apply ex_expr0; assumption].
  - intros toks a r C H. rewrite assign_S in H. inv_bind H b r1 E.
    destruct (SC _ _ _ C E) as (ts & -> & X). apply clean_app in C.
    destruct (find_op asg_ops r1) as [[o r2]|] eqn:P.
    + apply find_inv in P. destruct P as (s & IN & ->). inv_bind H c r3 E2. injection H as <- <-.
      destruct (SA _ _ _ (clean_tl _ _ C) E2) as (us & -> & Y).
      exists (ts ++ TP s :: us). split; [tac|]. apply ex_lax_asg; try assumption; [reflexivity|].
      cbn in IN |- *. tauto.
    + injection H as -> ->. exists ts. split; [reflexivity | apply ex_asg0; assumption].
  - intros toks a r C H. rewrite conditional_S in H. inv_bind H b r1 E.
    destruct (SB 0 _ _ _ ltac:(lia) C E) as (ts & -> & X). apply clean_app in C.
    destruct (punct "?" r1) as [r2|] eqn:P.
    + apply punct_inv in P. subst r1. apply clean_tl in C. destruct (punct ":" r2) as [r3|] eqn:P2.
      * apply punct_inv in P2. subst r2. apply clean_tl in C. inv_bind H c r4 E2. injection H as <- <-.
        destruct (SC _ _ _ C E2) as (vs & -> & Z).
        exists (ts ++ TP "?" :: TP ":" :: vs). split; [tac | apply ex_elvis; assumption].
      * inv_bind H c r3 E2. apply pbind_inv in H. destruct H as [r4 [E3 H]]. apply skip_inv in E3. subst r3.
        inv_bind H d r5 E4. injection H as <- <-.
        destruct (SE _ _ _ C E2) as (us & -> & Y). apply clean_app, clean_tl in C.
        destruct (SC _ _ _ C E4) as (vs & -> & Z).
        exists (ts ++ TP "?" :: us ++ TP ":" :: vs). split; [tac | apply ex_cond; assumption].
    + injection H as -> ->. exists ts. split; [reflexivity | apply ex_cond0; assumption].
  - intros l toks a r L C H. rewrite binary_S in H. destruct (Nat.eqb l 10) eqn:E10.
    + apply Nat.eqb_eq in E10. subst l. exact (SK _ _ _ C H).
    + apply Nat.eqb_neq in E10. inv_bind H b r1 E. destruct (SB (S l) _ _ _ ltac:(lia) C E) as (ts & -> & X).
      apply clean_app in C.
      destruct (SL l _ _ _ _ ts ltac:(lia) C H) as (us & -> & Y).
      { apply (ex_opnd _ _ _ _ (nt_of (S l))); [apply nt_operand; lia | exact X]. }
      exists (ts ++ us). split; [tac | exact Y].
  - intros l toks a b r us L C H X. rewrite binary_loop_S in H.
    destruct (find_op (level_ops l) toks) as [[o r1]|] eqn:P.
    + apply find_inv in P. destruct P as (s & IN & ->). apply clean_tl in C. inv_bind H c r2 E.
      destruct (SB (S l) _ _ _ ltac:(lia) C E) as (ts & -> & Y). apply clean_app in C.
      destruct (SL l _ _ _ _ (us ++ TP s :: ts) L C H) as (vs & -> & Z).
      { apply (ex_bin _ _ _ _ (nt_of (S l))); [apply nt_operand; lia | apply nt_ops; exact IN | exact X | exact Y]. }
      exists (TP s :: ts ++ vs). split; [tac|].
      replace (us ++ TP s :: ts ++ vs) with ((us ++ TP s :: ts) ++ vs) by tac. exact Z.
    + injection H as -> ->. exists []. split; [reflexivity|]. rewrite app_nil_r. exact X.
  - intros toks a r C H. rewrite cast_S in H. apply pbind_inv in H. destruct H as [o [E H]].
    rewrite (tparen_none _ _ _ C E) in H. destruct (SU _ _ _ C H) as (ts & -> & X).
    exists ts. split; [reflexivity | apply ex_cast0; exact X].
  - intros toks a r C H. rewrite unary_S in H. destruct (find_op un_ops toks) as [[u r1]|] eqn:P1.
    { apply find_inv in P1. destruct P1 as (s & IN & ->). inv_bind H b r2 E. injection H as <- <-.
      destruct (SK _ _ _ (clean_tl _ _ C) E) as (ts & -> & X). exists (TP s :: ts). split; [reflexivity|].
      apply ex_un; [|exact X]. cbn in IN |- *. tauto. }
    destruct (find_op [("++", true); ("--", false)] toks) as [[i r1]|] eqn:P2.
    { apply find_inv in P2. destruct P2 as (s & IN & ->). inv_bind H b r2 E. injection H as <- <-.
      destruct (SU _ _ _ (clean_tl _ _ C) E) as (ts & -> & X). exists (TP s :: ts). split; [reflexivity|].
      destruct IN as [IN | [IN | []]]; injection IN as <- <-; [apply ex_preinc | apply ex_predec]; exact X. }
    destruct (punct "&&" toks) as [r1|] eqn:P3.
    { apply punct_inv in P3. subst toks. inv_bind H s r2 E. injection H as <- <-.
      destruct r1 as [|[] r1]; try discriminate E. injection E as -> ->.
      exists [TP "&&"; TId s]. split; [reflexivity | apply ex_label]. }
    inv_bind H b r1 E. destruct (SM _ _ _ C E) as (ts & -> & X). apply clean_app in C.
    destruct (SP _ _ _ _ ts C H) as (us & -> & Y); [apply ex_post; exact X|].
    exists (ts ++ us). split; [tac | apply ex_unary; exact Y].
  - intros toks a b r us C H X. rewrite postfix_S in H.
    destruct (punct "(" toks) as [r1|] eqn:P.
    { apply punct_inv in P. subst toks. apply clean_tl in C. inv_bind H bs r2 E.
      destruct (SR true _ _ _ C E) as (ts & -> & Y). apply clean_app, clean_tl in C.
      destruct (SP _ _ _ _ (us ++ TP "(" :: ts ++ [TP ")"]) C H) as (vs & -> & Z); [apply ex_call; assumption|].
      exists (TP "(" :: ts ++ TP ")" :: vs). split; [tac|].
      replace (us ++ TP "(" :: ts ++ TP ")" :: vs) with ((us ++ TP "(" :: ts ++ [TP ")"]) ++ vs) by tac. exact Z. }
    destruct (punct "[" toks) as [r1|] eqn:P1.
    { apply punct_inv in P1. subst toks. apply clean_tl in C. inv_bind H c r2 E.
      apply pbind_inv in H. destruct H as [r3 [E2 H]]. apply skip_inv in E2. subst r2.
      destruct (SE _ _ _ C E) as (ts & -> & Y). apply clean_app, clean_tl in C.
      destruct (SP _ _ _ _ (us ++ TP "[" :: ts ++ [TP "]"]) C H) as (vs & -> & Z); [apply ex_index; assumption|].
      exists (TP "[" :: ts ++ TP "]" :: vs). split; [tac|].
      replace (us ++ TP "[" :: ts ++ TP "]" :: vs) with ((us ++ TP "[" :: ts ++ [TP "]"]) ++ vs) by tac. exact Z. }
    destruct (punct "." toks) as [r1|] eqn:P2.
    { apply punct_inv in P2. subst toks. apply clean_tl in C. inv_bind H s r2 E.
      destruct r1 as [|[] r1]; try discriminate E. injection E as -> ->. apply clean_tl in C.
      destruct (SP _ _ _ _ (us ++ [TP "."; TId s]) C H) as (vs & -> & Z); [apply ex_dot; assumption|].
      exists (TP "." :: TId s :: vs). split; [reflexivity|]. rewrite <- app_assoc in Z. exact Z. }
    destruct (punct "->" toks) as [r1|] eqn:P3.
    { apply punct_inv in P3. subst toks. apply clean_tl in C. inv_bind H s r2 E.
      destruct r1 as [|[] r1]; try discriminate E. injection E as -> ->. apply clean_tl in C.
      destruct (SP _ _ _ _ (us ++ [TP "->"; TId s]) C H) as (vs & -> & Z); [apply ex_arrow; assumption|].
      exists (TP "->" :: TId s :: vs). split; [reflexivity|]. rewrite <- app_assoc in Z. exact Z. }
    destruct (find_op [("++", true); ("--", false)] toks) as [[i r1]|] eqn:P4.
    { apply find_inv in P4. destruct P4 as (s & IN & ->). apply clean_tl in C.
      destruct (SP _ _ _ _ (us ++ [TP s]) C H) as (vs & -> & Z).
      { destruct IN as [IN | [IN | []]]; injection IN as <- <-; [apply ex_inc | apply ex_dec]; exact X. }
      exists (TP s :: vs). split; [reflexivity|]. rewrite <- app_assoc in Z. exact Z. }
    injection H as -> ->. exists []. split; [reflexivity|]. rewrite app_nil_r. exact X.
  - intros first toks bs r C H. rewrite funargs_S in H. destruct (punct ")" toks) as [r1|] eqn:P.
    { apply punct_inv in P. subst toks. injection H as <- <-. destruct first.
      - exists []. split; [reflexivity | apply args0].
      - left. auto. }
    apply pbind_inv in H. destruct H as [r1 [E1 H]]. inv_bind H b r2 E2. inv_bind H bs' r3 E3. injection H as <- <-.
    assert (C1 : clean r1).
    { destruct first; [injection E1 as <-; exact C|]. apply skip_inv in E1. subst toks. exact (clean_tl _ _ C). }
    destruct (SA _ _ _ C1 E2) as (ts & E4 & X). rewrite E4 in C1. apply clean_app in C1.
    assert (G : exists us, r1 = us ++ TP ")" :: r3 /\ args us (b :: bs')).
    { destruct (SR false _ _ _ C1 E3) as [[-> ->] | (us & b' & bs2 & -> & -> & Y)].
      - exists ts. split; [exact E4 | apply args1; exact X].
      - exists (ts ++ TP "," :: us). split; [rewrite E4; tac | apply args2; assumption]. }
    destruct G as (us & E5 & Y). destruct first.
    + injection E1 as <-. exists us. auto.
    + apply skip_inv in E1. subst toks. right. exists us, b, bs'. rewrite E5. auto.
  - intros toks a r C H. rewrite primary_S in H.
    destruct toks as [|t toks]; [discriminate H|]. destruct t as [s|w|d|s|z|z].
    + destruct (String.eqb s "(") eqn:ES.
      2: { apply String.eqb_neq in ES. exfalso.
           repeat match type of H with context [match ?x with _ => _ end] => destruct x; try discriminate H; try congruence end. }
      apply String.eqb_eq in ES. subst s. rewrite (clean_type _ (clean_tl _ _ C)) in H.
      destruct (punct "{" toks); [discriminate H|]. inv_bind H b r1 E. apply pbind_inv in H. destruct H as [r2 [E2 H]].
      injection H as <- <-. apply skip_inv in E2. subst r1.
      destruct (SE _ _ _ (clean_tl _ _ C) E) as (ts & -> & X).
      exists (TP "(" :: ts ++ [TP ")"]). split; [tac | apply ex_par; exact X].
    + destruct (String.eqb w "sizeof") eqn:E1.
      { apply String.eqb_eq in E1. subst w. apply pbind_inv in H. destruct H as [o [E H]].
        rewrite (tparen_none _ _ _ (clean_tl _ _ C) E) in H. inv_bind H b r1 E2. injection H as <- <-.
        destruct (SU _ _ _ (clean_tl _ _ C) E2) as (ts & -> & X).
        exists (TW "sizeof" :: ts). split; [reflexivity|]. apply ex_lax_size; [reflexivity | apply ex_sizeof; exact X]. }
      destruct (String.eqb w "_Alignof") eqn:E2.
      { apply String.eqb_eq in E2. subst w. apply pbind_inv in H. destruct H as [o [E H]].
        rewrite (tparen_none _ _ _ (clean_tl _ _ C) E) in H. inv_bind H b r1 E3. injection H as <- <-.
        destruct (SU _ _ _ (clean_tl _ _ C) E3) as (ts & -> & X).
        exists (TW "_Alignof" :: ts). split; [reflexivity|]. apply ex_lax_align; [reflexivity | apply ex_align; exact X]. }
      apply String.eqb_neq in E1, E2. exfalso.
      repeat match type of H with context [match ?x with _ => _ end] => destruct x; try discriminate H; try congruence end.
    + discriminate H.
    + destruct (tdef s) eqn:E; [discriminate H|]. injection H as <- <-. exists [TId s]. split; [reflexivity | apply ex_id; exact E].
    + injection H as <- <-. exists [TNum z]. split; [reflexivity | apply ex_num].
    + injection H as <- <-. exists [TStr z]. split; [reflexivity | apply ex_str].
Qed.
End Sound.
