(** Reading specifier lists, qualifiers and single tokens. *)
From Coq Require Import String ZArith List Bool Lia.
From Verif Require Import Base DeclSpec DeclModel DeclProofs ExprSpec ExprModel ExprTotal ExprText.
Import ListNotations.
Local Open Scope string_scope.

Section Specs.
Variable tdef : string -> option dtype.
Variables c23 auty : bool.
Notation word := (word tdef).

(** Without a VarAttr specifiers are read as with one, if there are no storage classes. *)
Definition common (d : dtok) : Prop :=
  match d with TKw _ | TQual _ | TNoreturn | TName _ | TTag _ => True | _ => False end.
Lemma specifiers_noattr rest : stops [KInt] rest -> forall l s s', Forall common l ->
  specifiers AnyAttr c23 auty (l ++ rest) false s = Ok (s', rest) ->
  specifiers NoAttr c23 auty (l ++ rest) false s = Ok (s', rest).
Proof.
  intros SP. induction l as [|t l IH]; intros s s' F H; cbn [app] in *.
  - destruct rest as [|t r]; [exact H|].
    destruct t; try (exfalso; exact SP); [|exact H]. cbn [specifiers specifier] in H |- *.
    destruct (_ || _); cbn [bind] in H |- *; [exact H|].
    pose proof (specifiers_len c23 auty AnyAttr r false (with_ty s t (counter s + OTHER)%Z)) as L.
    rewrite H in L. cbn [List.length] in L. lia.
  - inversion F as [|? ? C F']; subst. destruct t; try contradiction C; cbn [specifiers specifier] in H |- *.
    + destruct (switch cases _); cbn [bind] in H |- *; [|discriminate H]. apply IH; assumption.
    + destruct (negb _); cbn [bind] in H |- *; [discriminate H|]. apply IH; assumption.
    + destruct (_ || _); cbn [bind] in H |- *; [|apply IH; assumption].
      exfalso. injection H as _ E. apply (f_equal (@List.length dtok)) in E.
      cbn [List.length] in E. rewrite app_length in E. lia.
    + cbn [bind] in *. apply IH; assumption.
    + cbn [bind] in *. apply IH; assumption.
Qed.
Lemma declspec_noattr rest l t a : stops [KInt] rest -> Forall common l ->
  declspec AnyAttr c23 auty Abort (l ++ rest) = Ok (t, a, rest) ->
  exists a', declspec NoAttr c23 auty Abort (l ++ rest) = Ok (t, a', rest).
Proof.
  intros SP F. unfold declspec.
  destruct (specifiers AnyAttr c23 auty (l ++ rest) false _) as [[s r]| |] eqn:E; cbn [bind fst snd]; intros H;
    try discriminate H.
  destruct (finish Abort s) as [t'| |] eqn:FI; cbn [bind] in H; try discriminate H.
  injection H as <- <- ->. rewrite (specifiers_noattr rest SP l _ _ F E). cbn [bind fst snd]. rewrite FI. cbn [bind].
  eauto.
Qed.

(** What may follow a specifier list. *)
Definition spec_end (rest : list tok) : Prop :=
  match rest with
  | [] => True
  | t :: _ => match word t with TStop | TName _ => True | _ => False end
  end.
Lemma no_stor_ok l : Forall no_stor l -> storage_ok l.
Proof.
  intros F H. exfalso. unfold stored_in in H. apply existsb_exists in H. destruct H as (d & IN & E).
  rewrite Forall_forall in F. specialize (F d IN). destruct d; try discriminate E. exact F.
Qed.
Lemma dspec_ok ts t rest : specs tdef ts t -> spec_end rest -> dspec tdef c23 auty (ts ++ rest) = POk (t, rest).
Proof.
  intros SP SE.
  assert (S1 : forall ks, ks <> [] -> stops ks (map word rest)).
  { intros ks N. destruct rest as [|x r]; [exact I|]. cbn in SE |- *. destruct (word x); auto; contradiction SE. }
  assert (G : exists a', declspec NoAttr c23 auty Abort (map word ts ++ map word rest) = Ok (t, a', map word rest)).
  { destruct SP as [ts b P N SO D | ts us x t X NT NS Q].
    - assert (KN : kws (map word ts) <> []).
      { intros E. rewrite E in D. destruct D as (row & IN & PM). apply Permutation.Permutation_nil in PM.
        subst row. cbn in IN. repeat (destruct IN as [E' | IN]; [discriminate E'|]). exact IN. }
      pose proof (declspec_kw c23 auty Abort _ (map word rest) P (no_stor_ok _ N) SO KN (S1 _ KN)) as K.
      destruct (declspec AnyAttr c23 auty Abort (map word ts ++ map word rest)) as [[[t a] r]| |] eqn:E.
      + destruct K as (b' & DN & -> & -> & ->). rewrite (denotes_one _ _ _ D DN).
        eapply declspec_noattr; [apply S1; discriminate | | exact E].
        apply Forall_forall. intros d IN. rewrite Forall_forall in P, N. specialize (P d IN). specialize (N d IN).
        destruct d; auto.
      + contradiction K.
      + exfalso. exact (K _ D).
    - rewrite map_app in NT, NS, Q. rewrite !map_app. cbn [map] in *.
      pose proof (declspec_other c23 auty Abort (map word ts) (word x) t (map word us) (map word rest) X NT (no_stor_ok _ NS)
        (S1 [KInt] ltac:(discriminate)) Q) as K.
      replace ((map word ts ++ word x :: map word us) ++ map word rest)%list
        with (map word ts ++ word x :: map word us ++ map word rest)%list by (rewrite <- app_assoc; reflexivity).
      pose proof (declspec_noattr (map word rest) (map word ts ++ word x :: map word us)%list) as L.
      rewrite <- app_assoc in L. cbn [app] in L. eapply L; [apply S1; discriminate | | exact K].
      apply Forall_app in NT. destruct NT as [N1 N2]. apply Forall_app in NS. destruct NS as [O1 O2].
      assert (C : forall l, Forall no_type l -> Forall no_stor l -> Forall common l).
      { intros l A B. apply Forall_forall. intros d IN. rewrite Forall_forall in A, B.
        specialize (A d IN). specialize (B d IN). destruct d; auto. }
      apply Forall_app. split; [auto|]. constructor; [|auto]. destruct X as [-> | ->]; exact I. }
  destruct G as (a' & G). unfold dspec. rewrite map_app, G. f_equal. f_equal.
  rewrite app_length, map_length.
  replace (List.length ts + List.length rest - List.length rest) with (List.length ts) by lia.
  rewrite skipn_app, skipn_all, Nat.sub_diag. reflexivity.
Qed.

Lemma specs_typename ts t rest : specs tdef ts t -> is_typename tdef (ts ++ rest) = true.
Proof.
  intros H. destruct (specs_words _ _ _ H) as [F N]. destruct ts as [|x r]; [congruence|].
  inversion F as [|? ? W _]; subst. cbn. destruct (word x); congruence.
Qed.

(** * Qualifiers *)
Lemma set_q_fold : forall qs q, fold_left set_q qs q = union_q q (qset qs).
Proof.
  induction qs as [|k qs IH]; intros q; cbn [fold_left].
  - unfold qset. cbn. destruct q. unfold union_q. cbn. rewrite !orb_false_r. reflexivity.
  - rewrite IH, set_q_union. unfold qset. cbn [map quals_in fold_right]. fold (quals_in (map TQual qs)).
    rewrite union_q_assoc, (union_q_comm q). reflexivity.
Qed.
Definition no_qual (r : list tok) : Prop := match r with TD (TQual _) :: _ => False | _ => True end.
Lemma pquals_ok r : no_qual r -> forall qs q, pointer_qualifiers q (qwords qs ++ r) = (union_q q (qset qs), r).
Proof.
  intros N. induction qs as [|k qs IH]; intros q.
  - cbn [qwords map app]. assert (E : pointer_qualifiers q r = (q, r)).
    { destruct r as [|[| |[]| | |] r]; try reflexivity. contradiction N. }
    rewrite E. f_equal. rewrite <- (set_q_fold []). reflexivity.
  - cbn [qwords map app pointer_qualifiers]. fold (qwords qs). rewrite IH. f_equal.
    rewrite <- !set_q_fold. reflexivity.
Qed.
Lemma pointers_quals T r : no_qual r -> forall qs q,
  pointers T (Some q) (qwords qs ++ r) = pointers (CPtr (union_q q (qset qs)) T) None r.
Proof.
  intros N. induction qs as [|k qs IH]; intros q.
  - cbn [qwords map app]. rewrite <- (set_q_fold []). cbn [fold_left].
    destruct r as [|[s| |[]| | |] r]; try reflexivity. contradiction N.
  - cbn [qwords map app pointers]. fold (qwords qs). rewrite IH. rewrite <- !set_q_fold. reflexivity.
Qed.
Lemma pointers_star T qs r : no_qual r ->
  pointers T None (TP "*" :: qwords qs ++ r) = pointers (CPtr (qset qs) T) None r.
Proof. intros N. cbn [pointers]. rewrite pointers_quals by exact N. rewrite noq_l. reflexivity. Qed.
Lemma pointers_stop T r : match r with TP s :: _ => s <> "*" | _ => True end -> pointers T None r = (T, r).
Proof.
  destruct r as [|[s| |[]| | |] r]; try reflexivity. intros N. cbn [pointers].
  repeat match goal with |- context [match ?x with _ => _ end] => destruct x; try reflexivity; try congruence end.
Qed.
End Specs.
