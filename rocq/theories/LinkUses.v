(** Proofs of C60, continued: what is used is declared, whatever the declarations. *)
From Coq Require Import Ascii String ZArith List Bool Lia.
From Verif Require Import LinkSpec LinkModel LinkProofs LinkOnce.
Import ListNotations.
Local Open Scope string_scope.
Local Open Scope Z_scope.
Local Open Scope list_scope.

(** The names in the scopes of the parser are names C has there. *)
Definition within (sc : scopes) (e : env) : Prop := Forall2 (fun f g => forall x, assoc x f <> None -> assoc x g <> None) sc e.
Lemma within_find : forall sc e x, within sc e -> find_var sc x <> None -> visible e x <> None.
Proof.
  induction 1 as [|f g sc e H F IH]; intros N; cbn [find_var visible] in *; [destruct (N eq_refl)|]. specialize (H x).
  destruct (assoc x f) eqn:A; destruct (assoc x g) eqn:B; try discriminate; [destruct (H ltac:(discriminate) eq_refl)|].
  apply IH, N.
Qed.
Lemma within_push : forall sc e x v a, within sc e -> within (push_scope x v sc) (bind_name x a e).
Proof.
  intros sc e x v a [|f g sc' e' H F]; cbn [push_scope bind_name]; constructor; [|exact F]. intros y. cbn [assoc].
  destruct (String.eqb x y); [discriminate | apply H].
Qed.
Lemma within_bind : forall sc e x a, within sc e -> within sc (bind_name x a e).
Proof.
  intros sc e x a [|f g sc' e' H F]; cbn [bind_name]; constructor; [|exact F]. intros y N. cbn [assoc].
  destruct (String.eqb x y); [discriminate | apply H, N].
Qed.
Lemma declare_within : forall x c tls t init s s' e a, declare x c tls t init s = Ok s' -> within (scope s) e -> within (scope s') (bind_name x a e).
Proof.
  intros x c tls t init s s' e a H W. unfold declare in H.
  assert (D : forall i u, match c, init with
     | SConstexpr, None => Err
     | _, _ => Ok (change i (fun o => Obj (o_name o) (Some (match init with Some (_, u) => u | None => t end)) (o_align o)
                 (negb match c with SExtern => true | _ => false end || match init with Some _ => true | None => false end)
                 match c with SStatic | SConstexpr => true | _ => false end
                 (match init with Some _ => false | None => negb match c with SExtern => true | _ => false end || match init with Some _ => true | None => false end end)
                 tls (match init with Some (d, _) => Some d | None => o_init o end)) u)
     end = Ok s' -> scope s' = scope u).
  { intros i u D. destruct c, init; try discriminate; injection D as <-; reflexivity. }
  destruct (find_var (scope s) x) as [[i|k|]|].
  - destruct (nth_error (globals s) i) as [o|]; [|discriminate]. apply within_bind.
    destruct (negb (negb _ || _)); [injection H as <-; exact W|].
    destruct (o_def o && negb (o_tent o)); [destruct init; [discriminate | injection H as <-; exact W]|]. rewrite (D _ _ H). exact W.
  - apply within_bind. destruct (negb (negb _ || _)); [injection H as <-; exact W | discriminate].
  - rewrite (D _ _ H). apply within_push, W.
  - rewrite (D _ _ H). apply within_push, W.
Qed.
Lemma prototype_within : forall x st ex il s q e a, func_prototype x st ex il s = Ok q -> within (scope s) e -> within (scope (snd q)) (bind_name x a e).
Proof.
  intros x st ex il s q e a H W. unfold func_prototype in H. destruct (find_func x s) as [i|].
  - destruct (nth_error (globals s) i) as [o|]; [|discriminate]. destruct (negb (o_static o) && st); [discriminate|]. injection H as <-. apply within_bind, W.
  - injection H as <-. destruct (st || il && negb ex); apply within_push, W.
Qed.
Definition okuse (P : state -> res (state * list (Z * ref))) (Q : env -> env * list fact * list use) : Prop :=
  forall s e e' f u s' r, within (scope s) e -> Q e = (e', f, u) -> P s = Ok (s', r) -> within (scope s') e' /\ Forall oku u.
Section Uses.
Variable done : ty -> bool.
Lemma go_use : forall l, Forall (fun b => okuse (block_item b) (one done b)) l -> okuse (item_go l) (one_go done l).
Proof.
  induction l as [|b l IH]; intros FA s e e' f u s' r W Q H; cbn [one_go item_go] in *.
  - injection Q as <- <- <-. injection H as <- <-. auto.
  - inversion FA; subst. destruct (one done b e) as [[e1 f1] u1] eqn:Q1. destruct (one_go done l e1) as [[e2 f2] u2] eqn:Q2.
    injection Q as <- <- <-. apply bind_inv in H. destruct H as ([s1 r1] & E1 & H). apply bind_inv in H. destruct H as ([s2 r2] & E2 & H).
    cbn [fst snd] in *. injection H as <- <-. destruct (H2 _ _ _ _ _ _ _ W Q1 E1) as [W1 U1]. destruct (IH H3 _ _ _ _ _ _ _ W1 Q2 E2) as [W2 U2].
    split; [exact W2 | apply Forall_app; auto].
Qed.
Lemma item_use : forall b, okuse (block_item b) (one done b).
Proof.
  apply bitem_rect'.
  - intros m FA s e e' f u s' r W Q H. rewrite one_block in Q. rewrite item_block in H.
    destruct (one_go done m ([] :: e)) as [[e1 f1] u1] eqn:Q1. injection Q as <- <- <-.
    apply bind_inv in H. destruct H as ([s1 r1] & E1 & H). cbn [fst snd] in *. injection H as <- <-.
    assert (W0 : within (scope (enter s)) ([] :: e)) by (constructor; [intros x N; destruct (N eq_refl) | exact W]).
    destruct (go_use m FA _ _ _ _ _ _ _ W0 Q1 E1) as [W1 U1]. split; [|exact U1].
    destruct (scope s) as [|f0 sc] eqn:ES.
    + inversion W; subst. assert (F : frame0 (enter s) s1).
      { eapply go_keeps; [apply Forall_forall; intros b _; apply item_keeps | discriminate | exact E1]. }
      cbn [leave scope]. rewrite (f0_tl _ _ F). cbn [enter scope tl]. rewrite ES. constructor.
    + assert (F : frame0 (enter s) s1).
      { eapply go_keeps; [apply Forall_forall; intros b _; apply item_keeps | discriminate | exact E1]. }
      cbn [leave scope]. rewrite (f0_tl _ _ F). cbn [enter scope tl]. rewrite ES. exact W.
  - intros b NB s e e' f u s' r W Q H. destruct b as [k x|k x|x|x tls t|x ex il|m]; cbn [block_item one] in *.
    + apply bind_inv in H. destruct H as (q & E & H). injection H as <- <-. injection Q as <- <- <-. split; [exact W|].
      constructor; [|constructor]. unfold oku. cbn [snd]. apply within_find with (1 := W). intro N. unfold name_ref in E. rewrite N in E. discriminate.
    + injection H as <- <-. injection Q as <- <- <-. split; [apply within_push, W | constructor].
    + injection H as <- <-. injection Q as <- <- <-. split; [apply within_push, W | constructor].
    + apply bind_inv in H. destruct H as (s1 & E & H). injection H as <- <-. injection Q as <- <- <-. split; [eapply declare_within; eauto | constructor].
    + apply bind_inv in H. destruct H as (q & E & H). injection H as <- <-. injection Q as <- <- <-. split; [eapply prototype_within; eauto | constructor].
    + destruct (NB m eq_refl).
Qed.
Lemma block_use : forall l, okuse (block_items l) (block done l).
Proof. intro l. apply (go_use l). apply Forall_forall. intros b _. apply item_use. Qed.
Lemma block_tl : forall l s s' r, scope s <> [] -> block_items l s = Ok (s', r) -> tl (scope s') = tl (scope s).
Proof.
  intros l s s' r N H. apply (f0_tl _ _). assert (K : keeps (item_go l)) by (apply go_keeps, Forall_forall; intros b _; apply item_keeps).
  exact (K _ _ _ N H).
Qed.
End Uses.
Lemma unit_use : forall p r e r2 f2 u2 s s' rr, unit_facts p r e = (r2, f2, u2) -> unit_items p s = Ok (s', rr) -> within (scope s) e -> Forall oku u2.
Proof.
  induction p as [|i p IH]; intros r e r2 f2 u2 s s' rr Q H W; cbn [unit_facts unit_items] in *.
  - injection Q as <- <- <-. constructor.
  - destruct (item_facts i r e) as [[[r1 e1] f1] u1] eqn:Q1. destruct (unit_facts p r1 e1) as [[r3 f3] u3] eqn:Q2. injection Q as <- <- <-.
    apply bind_inv in H. destruct H as ([s1 rr1] & E1 & H). apply bind_inv in H. destruct H as ([s2 rr2] & E2 & _). cbn [fst snd] in *.
    assert (X : within (scope s1) e1 /\ Forall oku u1); [|destruct X as [W1 U1]; apply Forall_app; split; [exact U1 | eapply IH; eauto]].
    destruct i as [i z a|x c tls t init|x st ex il [l|]]; cbn [unit_item item_facts] in *.
    + injection Q1 as <- <- <- <-. injection E1 as <- <-. split; [exact W | constructor].
    + injection Q1 as <- <- <- <-. apply bind_inv in E1. destruct E1 as (s3 & E1 & E). injection E as <- <-. split; [eapply declare_within; eauto | constructor].
    + destruct (block (complete_now r) l ([] :: bind_name x (ELink (if st then Internal else extern_link e x) None) e)) as [[eb fb] ub] eqn:B.
      injection Q1 as <- <- <- <-. apply bind_inv in E1. destruct E1 as ([k s3] & E1 & E). cbn [fst snd] in E.
      pose proof (prototype_within _ _ _ _ _ _ e (ELink (if st then Internal else extern_link e x) None) E1 W) as W1. cbn [snd] in W1.
      unfold func_definition in E. destruct (nth_error (globals s3) k) as [o|]; [|discriminate]. destruct (o_def o); [discriminate|].
      apply bind_inv in E. destruct E as ([s4 r4] & E & X). injection X as <- <-. cbn [fst snd].
      match type of E with block_items l ?s0 = _ => assert (W0 : within (scope s0) ([] :: bind_name x (ELink (if st then Internal else extern_link e x) None) e))
        by (constructor; [intros y N; destruct (N eq_refl) | exact W1]); pose proof (block_tl l s0 s4 r4 ltac:(discriminate) E) as T end.
      destruct (block_use (complete_now r) l _ _ _ _ _ _ _ W0 B E) as [_ U]. split; [|exact U]. cbn [leave scope]. rewrite T. exact W1.
    + injection Q1 as <- <- <- <-. apply bind_inv in E1. destruct E1 as ([k s3] & E1 & E). injection E as <- <-. split; [|constructor].
      exact (prototype_within _ _ _ _ _ _ e _ E1 W).
Qed.
Lemma declared : forall p s r k x o, parse_unit p = Ok (s, r) -> In (k, x, o) (uses p) -> o <> None.
Proof.
  intros p s r k x o H I. unfold uses in I. destruct (unit_facts p [] [[]]) as [[r2 f2] u2] eqn:Q. cbn [snd] in I.
  assert (W : within [[]] [[]]) by (constructor; [intros y N; destruct (N eq_refl) | constructor]).
  pose proof (unit_use _ _ _ _ _ _ _ _ _ Q H W) as U. rewrite Forall_forall in U. exact (U _ I).
Qed.
