(** Proofs for JmpModel.v: jumps; every statement of the grammar has a derivation; function bodies. *)
From Coq Require Import Ascii String ZArith List Bool Lia Arith.
From Verif Require Import JmpSpec JmpModel JmpProofs JmpMain JmpSem.
Import ListNotations.
Local Open Scope string_scope.
Local Open Scope Z_scope.
Local Open Scope list_scope.

(** * Contexts and the statements around *)
Definition shaped (P : nat -> place -> Prop) (c : ctx) (f : frame) : Prop :=
  match f with
  | Loop k xs => c_sw c = false /\ c_names c = xs /\ P (c_brk c) (PBrk k) /\ P (c_cont c) (PCont k)
  | Sw k xs => c_sw c = true /\ c_names c = xs /\ P (c_brk c) (PBrk k)
  end.
Definition FR (P : nat -> place -> Prop) := Forall2 (shaped P).
Lemma FR_ext : forall P cs ds c f, FR P c f -> FR P (ext cs ds c) f.
Proof.
  intros P cs ds c f. induction 1 as [|a fr c f H F IH]; [constructor|]. cbn [ext]. destruct (c_sw a) eqn:E.
  - constructor; [|exact F]. destruct fr; cbn [shaped c_sw c_names c_brk c_cont] in *.
    + destruct H; congruence.
    + destruct H as [_ H]. split; [reflexivity|exact H].
  - constructor; [exact H|exact IH].
Qed.
Lemma FR_Gr : forall P ls pl c c' f, Gr ls pl c c' -> FR P c f -> FR P c' f.
Proof. intros P ls pl c c' f [_ [cs [ds [-> _]]]] H. apply FR_ext, H. Qed.
Lemma FR_weak : forall (P Q : nat -> place -> Prop) c f, (forall u p, P u p -> Q u p) -> FR P c f -> FR Q c f.
Proof.
  intros P Q c f H. induction 1; constructor; [|assumption]. destruct y; cbn [shaped] in *.
  - destruct H0 as [A [B [C D]]]. auto.
  - destruct H0 as [A [B C]]. auto.
Qed.
Lemma break_ok : forall P x c f a, FR P c f -> resolve false x c = Ok a -> exists k, broken f x = Some (AfterOf k) /\ P (c_brk a) (PBrk k).
Proof.
  intros P x c f a. induction 1 as [|b fr c f H F IH]; intros E; [discriminate|]. cbn [resolve andb] in E.
  assert (N : forall xs, c_names b = xs -> (has x xs = true /\ b = a) \/ (has x xs = false /\ resolve false x c = Ok a)).
  { intros xs <-. destruct x as [[k y]|]; cbn [has]; [|injection E as <-; left; split; reflexivity].
    destruct (existsb (String.eqb y) (c_names b)); [injection E as <-; left; split; reflexivity|right; split; [reflexivity|exact E]]. }
  destruct fr as [k xs|k xs]; cbn [shaped broken] in *; [destruct H as [_ [B [P1 _]]]|destruct H as [_ [B P1]]];
    destruct (N _ B) as [[-> <-]|[-> E']]; try (exists k; split; [reflexivity|exact P1]); exact (IH E').
Qed.
Lemma cont_ok : forall P x c f a, FR P c f -> resolve true x c = Ok a -> exists k, continued f x = Some (NextOf k) /\ P (c_cont a) (PCont k).
Proof.
  intros P x c f a. induction 1 as [|b fr c f H F IH]; intros E; [discriminate|]. cbn [resolve andb] in E.
  destruct fr as [k xs|k xs]; cbn [shaped continued] in *.
  - destruct H as [S0 [B [_ P1]]]. rewrite S0 in E. subst xs. destruct x as [[j y]|]; cbn [has]; [|injection E as <-; exists k; split; [reflexivity|exact P1]].
    destruct (existsb (String.eqb y) (c_names b)); [injection E as <-; exists k; split; [reflexivity|exact P1]|exact (IH E)].
  - destruct H as [S0 _]. rewrite S0 in E. exact (IH E).
Qed.
Lemma break_pr : forall P x c f, FR P c f -> broken f x <> None -> exists a, resolve false x c = Ok a.
Proof.
  intros P x c f. induction 1 as [|b fr c f H F IH]; intros N; [destruct (N eq_refl)|]. cbn [resolve andb broken] in *.
  destruct x as [[j y]|]; [|eexists; reflexivity].
  assert (B : exists xs k, c_names b = xs /\ (if has (Some (j, y)) xs then Some (AfterOf k) else broken f (Some (j, y))) <> None)
    by (destruct fr; cbn [shaped] in H; destruct H as [_ [B _]]; eexists _, _; (split; [exact B|exact N])).
  destruct B as [xs [k [<- B]]]. cbn [has] in B. destruct (existsb (String.eqb y) (c_names b)); [eexists; reflexivity|exact (IH B)].
Qed.
Lemma cont_pr : forall P x c f, FR P c f -> continued f x <> None -> exists a, resolve true x c = Ok a.
Proof.
  intros P x c f. induction 1 as [|b fr c f H F IH]; intros N; [destruct (N eq_refl)|]. cbn [resolve andb].
  destruct fr as [k xs|k xs]; cbn [shaped continued] in *; destruct H as [S0 H]; rewrite S0.
  - destruct H as [B _]. subst xs. destruct x as [[j y]|]; [|eexists; reflexivity]. cbn [has] in N.
    destruct (existsb (String.eqb y) (c_names b)); [eexists; reflexivity|exact (IH N)].
  - exact (IH N).
Qed.

(** * Jumps *)
Fixpoint gl (n : node) : list (Z * (string + nat)) :=
  match n with
  | NGoto k _ x _ => [(k, inl x)]
  | NBreak k _ u | NCont k _ u => [(k, inr u)]
  | NIf _ _ t None => flat_map gl t
  | NIf _ _ t (Some e) => flat_map gl t ++ flat_map gl e
  | NSwitch _ _ _ _ _ b | NWhile _ _ _ _ b | NDo _ b _ _ _ _ | NFor _ _ _ _ _ _ b | NBlock b => flat_map gl b
  | _ => []
  end.
Definition hit (P : nat -> place -> Prop) (g : Z * (string + nat)) (j : Z * option target) : Prop :=
  fst g = fst j /\
  match snd g with
  | inl x => snd j = Some (Labelled x)
  | inr u => exists k, (snd j = Some (AfterOf k) /\ P u (PBrk k)) \/ (snd j = Some (NextOf k) /\ P u (PCont k))
  end.
Definition holds (P : nat -> place -> Prop) (pl : list (nat * place)) : Prop := forall u p, In (u, p) pl -> P u p.
Lemma holds_app : forall P l m, holds P (l ++ m) -> holds P l /\ holds P m.
Proof. intros P l m H. split; intros u p X; apply H, in_or_app; auto. Qed.
Lemma L_items : forall one s ls ns s1 l, L s ls ns s1 -> items one [] (map erase ns ++ l) = items one (names ls) l.
Proof. intros one s ls ns s1 l [|]; reflexivity. Qed.
Lemma items_plain : forall one xs s l, plain s = true -> items one xs (s :: l) = one xs s ++ items one [] l.
Proof. intros one xs s l H. destruct s; try reflexivity; discriminate. Qed.
Lemma L_gl : forall s ls ns s1, L s ls ns s1 -> flat_map gl ns = []. Proof. intros s ls ns s1 [|]; reflexivity. Qed.
Definition HJ (s : st) (pl : list (nat * place)) (g : list (Z * (string + nat))) (j : list frame -> list (Z * option target)) : Prop :=
  forall P f, FR P (ctxs s) f -> holds P pl -> Forall2 (hit P) g (j f).
Lemma HJ_loop : forall xs s k pl g (j : list frame -> list (Z * option target)), HJ (push_loop xs s) pl g j ->
  HJ s ((ctr s, PBrk k) :: ((ctr s + 1)%nat, PCont k) :: pl) g (fun f => j (Loop k xs :: f)).
Proof.
  intros xs s k pl g j H P f F A. apply H.
  - constructor; [|exact F]. cbn. split; [reflexivity|]. split; [reflexivity|]. split; apply A; [left; reflexivity|right; left; reflexivity].
  - intros u p X. apply A. right; right; exact X.
Qed.
Lemma W_jumps :
  (forall xs s n s', W xs s n s' -> HJ s (places n) (gl n) (fun f => jumps f xs (erase n))) /\
  (forall s ls b s', Ws s ls b s' -> HJ s (flat_map places b) (flat_map gl b) (fun f => jumps f (names (fst (part b))) (snd (part b)))) /\
  (forall s b s', Wb s b s' -> HJ s (flat_map places b) (flat_map gl b) (fun f => items (fun xs s => jumps f xs s) [] (map erase b))).
Proof.
  apply W_all; try (intros; intros P f F A; constructor; fail).
  - intros xs s k j x P f F A. constructor; [|constructor]. split; reflexivity.
  - intros xs s k x c E P f F A. constructor; [|constructor]. split; [reflexivity|]. destruct (break_ok _ _ _ _ _ F E) as [j [B Q]].
    exists j. left. split; [exact B|exact Q].
  - intros xs s k x c E P f F A. constructor; [|constructor]. split; [reflexivity|]. destruct (cont_ok _ _ _ _ _ F E) as [j [B Q]].
    exists j. right. split; [exact B|exact Q].
  - intros xs s k c ls b s1 C H I. exact I.
  - intros xs s k c ls b s1 ms e s2 C H I H' I' Ne P f F A. apply holds_app in A as [A A'].
    exact (Forall2_app (I P f F A) (I' P f (FR_Gr _ _ _ _ _ _ (proj1 (proj2 W_ctxs) _ _ _ _ H) F) A')).
  - intros xs s k c ls b s1 C H I P f F A. er. apply (I P (Sw k xs :: f)).
    + constructor; [|exact F]. cbn. split; [reflexivity|]. split; [reflexivity|]. apply A. left; reflexivity.
    + intros u p X. apply A. right; exact X.
  - intros xs s k c ls b s1 C H I. exact (HJ_loop xs s k _ _ _ I).
  - intros xs s k ls b j e s1 H I. exact (HJ_loop xs s k _ _ _ I).
  - intros xs s k f c i ls b s1 C H I. exact (HJ_loop xs s k _ _ _ I).
  - intros xs s l s1 H I. exact I.
  - intros s ls ns s1 n s2 HL H I P f F A. rewrite (L_part _ _ _ _ n HL), flat_map_app, (L_gl _ _ _ _ HL). rewrite flat_map_app in A. cbn [flat_map app fst snd].
    rewrite app_nil_r. apply holds_app in A as [_ A]. cbn [flat_map] in A. rewrite app_nil_r in A.
    exact (I P f (FR_Gr _ _ _ _ _ _ (L_Gr _ _ _ _ HL) F) A).
  - intros s ls ns s1 HL P f F A. rewrite (L_gl _ _ _ _ HL). rewrite <- (app_nil_r (map erase ns)), (L_items _ _ _ _ _ _ HL). constructor.
  - intros s ls ns s1 d l b s2 HL H I P f F A. rewrite map_app, flat_map_app, (L_gl _ _ _ _ HL), (L_items _ _ _ _ _ _ HL). rewrite flat_map_app in A.
    apply holds_app in A as [_ A]. exact (I P f (FR_Gr _ _ _ _ _ _ (L_Gr _ _ _ _ HL) F) A).
  - intros s ls ns s1 n s2 b s3 HL H I H' I' P f F A. rewrite map_app, flat_map_app, (L_gl _ _ _ _ HL), (L_items _ _ _ _ _ _ HL). cbn [map flat_map app].
    rewrite (items_plain _ _ _ _ (proj2 (proj1 W_grammar _ _ _ _ H))). rewrite flat_map_app in A. apply holds_app in A as [_ A]. cbn [flat_map] in A.
    apply holds_app in A as [A A']. pose proof (FR_Gr _ _ _ _ _ _ (L_Gr _ _ _ _ HL) F) as F1.
    exact (Forall2_app (I P f F1 A) (I' P f (FR_Gr _ _ _ _ _ _ (proj1 W_ctxs _ _ _ _ H) F1) A')).
Qed.

(** * Gotos *)
Section Nodes.
Variable P : node -> Prop.
Hypothesis H_if : forall k c t, Forall P t -> P (NIf k c t None).
Hypothesis H_else : forall k c t e, Forall P t -> Forall P e -> P (NIf k c t (Some e)).
Hypothesis H_switch : forall k c brk cs df b, Forall P b -> P (NSwitch k c brk cs df b).
Hypothesis H_while : forall k c brk cont b, Forall P b -> P (NWhile k c brk cont b).
Hypothesis H_do : forall k b j e brk cont, Forall P b -> P (NDo k b j e brk cont).
Hypothesis H_for : forall k f c i brk cont b, Forall P b -> P (NFor k f c i brk cont b).
Hypothesis H_block : forall b, Forall P b -> P (NBlock b).
Hypothesis H_leaf : forall n, match n with NIf _ _ _ _ | NSwitch _ _ _ _ _ _ | NWhile _ _ _ _ _ | NDo _ _ _ _ _ _ | NFor _ _ _ _ _ _ _ | NBlock _ => False | _ => True end -> P n.
Fixpoint node_ind' (n : node) : P n :=
  let all := fix all (l : list node) : Forall P l := match l with [] => Forall_nil _ | n :: l => Forall_cons _ (node_ind' n) (all l) end in
  match n with
  | NIf k c t None => H_if k c t (all t)
  | NIf k c t (Some e) => H_else k c t e (all t) (all e)
  | NSwitch k c brk cs df b => H_switch k c brk cs df b (all b)
  | NWhile k c brk cont b => H_while k c brk cont b (all b)
  | NDo k b j e brk cont => H_do k b j e brk cont (all b)
  | NFor k f c i brk cont b => H_for k f c i brk cont b (all b)
  | NBlock b => H_block b (all b)
  | n => H_leaf n Logic.I
  end.
End Nodes.
Section GotoProofs.
Variable l : list (list label * nat).
Fixpoint goto_all (b : list node) : res (list node) :=
  match b with [] => Ok [] | n :: b => do n <- goto_labels l n; do b <- goto_all b; Ok (n :: b) end.
Lemma goto_if : forall k c t, goto_labels l (NIf k c t None) = do t <- goto_all t; Ok (NIf k c t None). Proof. reflexivity. Qed.
Lemma goto_else : forall k c t e, goto_labels l (NIf k c t (Some e)) = do t <- goto_all t; do e <- goto_all e; Ok (NIf k c t (Some e)). Proof. reflexivity. Qed.
Lemma goto_switch : forall k c brk cs df b, goto_labels l (NSwitch k c brk cs df b) = do b <- goto_all b; Ok (NSwitch k c brk cs df b). Proof. reflexivity. Qed.
Lemma goto_while : forall k c brk cont b, goto_labels l (NWhile k c brk cont b) = do b <- goto_all b; Ok (NWhile k c brk cont b). Proof. reflexivity. Qed.
Lemma goto_do : forall k b j e brk cont, goto_labels l (NDo k b j e brk cont) = do b <- goto_all b; Ok (NDo k b j e brk cont). Proof. reflexivity. Qed.
Lemma goto_for : forall k f c i brk cont b, goto_labels l (NFor k f c i brk cont b) = do b <- goto_all b; Ok (NFor k f c i brk cont b). Proof. reflexivity. Qed.
Lemma goto_block : forall b, goto_labels l (NBlock b) = do b <- goto_all b; Ok (NBlock b). Proof. reflexivity. Qed.
Definition set (g : Z * (string + nat)) (h : Z * option nat) : Prop :=
  fst g = fst h /\ match snd g with inl x => snd h = find_label x l /\ snd h <> None | inr u => snd h = Some u end.
Record same (n m : node) : Prop := {
  sa_set : Forall2 set (gl n) (gotos m);
  sa_places : places m = places n;
  sa_tables : tables m = tables n;
  sa_erase : erase m = erase n;
  sa_label : match n with NLabel _ _ _ => m = n | _ => match m with NLabel _ _ _ => False | _ => True end end }.
Lemma same_flat : forall a b, Forall2 same a b ->
  Forall2 set (flat_map gl a) (flat_map gotos b) /\ flat_map places b = flat_map places a /\ flat_map tables b = flat_map tables a /\
  map erase b = map erase a /\ part b = part a.
Proof.
  intros a b H. assert (X : Forall2 set (flat_map gl a) (flat_map gotos b) /\ flat_map places b = flat_map places a /\ flat_map tables b = flat_map tables a /\
    map erase b = map erase a).
  { induction H as [|n m a b S0 F [I1 [I2 [I3 I4]]]]; [repeat (split; [constructor|]); reflexivity|]. cbn [flat_map map].
    split; [apply Forall2_app; [apply S0|exact I1]|]. rewrite (sa_places _ _ S0), (sa_tables _ _ S0), (sa_erase _ _ S0), I2, I3, I4. repeat (split; [reflexivity|]). reflexivity. }
  destruct X as [X1 [X2 [X3 X4]]]. repeat (split; [assumption|]).
  destruct H as [|n m a b S0 F]; [reflexivity|]. pose proof (sa_label _ _ S0) as E. pose proof (sa_erase _ _ S0) as E2. destruct F as [|n2 m2 a b S2 F].
  - destruct n; try (destruct m; try contradiction; cbn [part]; rewrite E2; reflexivity).
  - destruct F as [|n3 m3 a b S3 F].
    + destruct n; try (destruct m; try contradiction; reflexivity). rewrite E. cbn [part]. rewrite (sa_erase _ _ S2). reflexivity.
    + destruct n; try (destruct m; try contradiction; reflexivity).
Qed.
Definition okgoto (n : node) : Prop :=
  (forall m, goto_labels l n = Ok m -> same n m) /\
  ((forall k x, In (k, inl x) (gl n) -> find_label x l <> None) -> exists m, goto_labels l n = Ok m).
Lemma all_ok : forall b, Forall okgoto b ->
  (forall b', goto_all b = Ok b' -> Forall2 same b b') /\
  ((forall k x, In (k, inl x) (flat_map gl b) -> find_label x l <> None) -> exists b', goto_all b = Ok b').
Proof.
  induction 1 as [|n b [A B] F [IA IB]]; (split; [intros b' E|intros N]); cbn [goto_all] in *.
  - injection E as <-. constructor.
  - eexists; reflexivity.
  - bi E. bi E. injection E as <-. constructor; [apply A; assumption|apply IA; assumption].
  - destruct B as [m E]; [intros k x X; apply (N k), in_or_app; left; exact X|]. destruct IB as [m' E']; [intros k x X; apply (N k), in_or_app; right; exact X|].
    rewrite E, E'. eexists; reflexivity.
Qed.
Ltac one_list :=
  let E := fresh "E" in let N := fresh "N" in let IA := fresh "IA" in let IB := fresh "IB" in let m := fresh "m" in let b' := fresh "b" in
  let I1 := fresh "I" in let I2 := fresh "I" in let I3 := fresh "I" in let I4 := fresh "I" in let I5 := fresh "I" in
  match goal with H : Forall okgoto ?b |- _ => destruct (all_ok b H) as [IA IB] end;
  split; [intros m E; rewrite ?goto_if, ?goto_switch, ?goto_while, ?goto_do, ?goto_for, ?goto_block in E; bi E; injection E as <-;
          match goal with X : goto_all _ = Ok _ |- _ => destruct (same_flat _ _ (IA _ X)) as [I1 [I2 [I3 [I4 I5]]]] end;
          constructor; [exact I1|cbn [places]; rewrite I2; reflexivity|cbn [tables]; rewrite I3; reflexivity|er; rewrite ?I5, ?I4; reflexivity|exact Logic.I]
         |intros N; rewrite ?goto_if, ?goto_switch, ?goto_while, ?goto_do, ?goto_for, ?goto_block; destruct (IB N) as [b' E]; rewrite E; eexists; reflexivity].
Lemma goto_ok : forall n, okgoto n.
Proof.
  apply node_ind'.
  - intros k c t H. one_list.
  - intros k c t e H H'. destruct (all_ok t H) as [IA IB]. destruct (all_ok e H') as [IA' IB']. split; [intros m E|intros N]; rewrite goto_else in *.
    + bi E. bi E. injection E as <-. destruct (same_flat _ _ (IA _ E0)) as [I1 [I2 [I3 [I4 I5]]]]. destruct (same_flat _ _ (IA' _ E1)) as [J1 [J2 [J3 [J4 J5]]]].
      constructor; [exact (Forall2_app I1 J1)|cbn [places]; rewrite I2, J2; reflexivity|cbn [tables]; rewrite I3, J3; reflexivity|er; rewrite I5, J5; reflexivity|exact Logic.I].
    + destruct IB as [m E]; [intros j x X; apply (N j), in_or_app; left; exact X|]. destruct IB' as [m' E']; [intros j x X; apply (N j), in_or_app; right; exact X|].
      rewrite E, E'. eexists; reflexivity.
  - intros k c brk cs df b H. one_list.
  - intros k c brk cont b H. one_list.
  - intros k b j e brk cont H. one_list.
  - intros k f c i brk cont b H. one_list.
  - intros b H. one_list.
  - intros n H. destruct n; try contradiction;
      try (split; [intros m E; injection E as <-; constructor; [cbn [gl gotos]; repeat constructor|reflexivity|reflexivity|reflexivity|first [exact Logic.I|reflexivity]]
                  |intros _; eexists; reflexivity]).
    + split; [intros m E|intros N]; cbn [goto_labels] in *.
      * destruct (find_label x l) as [v|] eqn:F; [|discriminate]. injection E as <-. constructor; [|reflexivity|reflexivity|reflexivity|exact Logic.I].
        constructor; [|constructor]. split; [reflexivity|]. cbn. rewrite F. split; [reflexivity|discriminate].
      * specialize (N k x (or_introl eq_refl)). destruct (find_label x l); [eexists; reflexivity|destruct (N eq_refl)].
Qed.
End GotoProofs.

Lemma find_label_in : forall x l u, find_label x l = Some u -> exists ls, In (ls, u) l /\ In x (names ls).
Proof.
  induction l as [|[ls v] l IH]; intros u H; [discriminate|]. cbn [find_label] in H. destruct (existsb (String.eqb x) (names ls)) eqn:E.
  - injection H as <-. exists ls. split; [left; reflexivity|]. apply existsb_exists in E as [y [A B]]. apply String.eqb_eq in B. subst y. exact A.
  - destruct (IH _ H) as [m [A B]]. exists m. split; [right; exact A|exact B].
Qed.
Lemma find_label_pr : forall x l ls u, In (ls, u) l -> In x (names ls) -> find_label x l <> None.
Proof.
  induction l as [|[ms v] l IH]; intros ls u H N; [destruct H|]. cbn [find_label]. destruct (existsb (String.eqb x) (names ms)) eqn:E; [discriminate|].
  destruct H as [H|H]; [|exact (IH _ _ H N)]. injection H as -> ->. assert (X : existsb (String.eqb x) (names ls) = true); [|congruence].
  apply existsb_exists. exists x. split; [exact N|apply String.eqb_refl].
Qed.
Lemma plabs_in : forall pl ls u, In (ls, u) (plabs pl) <-> In (u, PLab ls) pl.
Proof.
  intros pl ls u. unfold plabs. rewrite in_flat_map. split.
  - intros [[v p] [A B]]. cbn [fst snd] in B. destruct p; try contradiction. destruct B as [B|[]]. injection B as -> ->. exact A.
  - intros H. exists (u, PLab ls). split; [exact H|left; reflexivity].
Qed.
Lemma names_in : forall (q : list (list label * nat)) x, In x (names (flat_map fst q)) <-> exists ls u, In (ls, u) q /\ In x (names ls).
Proof.
  intros q x. unfold names. split.
  - intros H. apply in_flat_map in H as [a [A B]]. apply in_flat_map in A as [[ls u] [A C]]. exists ls, u. split; [exact A|]. apply in_flat_map. exists a. split; assumption.
  - intros [ls [u [A B]]]. apply in_flat_map in B as [a [B C]]. apply in_flat_map. exists a. split; [|exact C]. apply in_flat_map. exists (ls, u). split; assumption.
Qed.

(** * Every statement of the grammar has a derivation *)
Section Stmts.
Variable P : stmt -> Prop.
Hypothesis H_if : forall k c ls s, P s -> P (SIf k c ls s).
Hypothesis H_else : forall k c ls s ms u, P s -> P u -> P (SElse k c ls s ms u).
Hypothesis H_switch : forall k c ls s, P s -> P (SSwitch k c ls s).
Hypothesis H_while : forall k c ls s, P s -> P (SWhile k c ls s).
Hypothesis H_do : forall k ls s j e, P s -> P (SDo k ls s j e).
Hypothesis H_for : forall k f c i ls s, P s -> P (SFor k f c i ls s).
Hypothesis H_block : forall l, Forall P l -> P (SBlock l).
Hypothesis H_leaf : forall s, match s with SIf _ _ _ _ | SElse _ _ _ _ _ _ | SSwitch _ _ _ _ | SWhile _ _ _ _ | SDo _ _ _ _ _ | SFor _ _ _ _ _ _ | SBlock _ => False | _ => True end -> P s.
Fixpoint stmt_ind' (s : stmt) : P s :=
  match s with
  | SIf k c ls s => H_if k c ls s (stmt_ind' s)
  | SElse k c ls s ms u => H_else k c ls s ms u (stmt_ind' s) (stmt_ind' u)
  | SSwitch k c ls s => H_switch k c ls s (stmt_ind' s)
  | SWhile k c ls s => H_while k c ls s (stmt_ind' s)
  | SDo k ls s j e => H_do k ls s j e (stmt_ind' s)
  | SFor k f c i ls s => H_for k f c i ls s (stmt_ind' s)
  | SBlock l => H_block l ((fix all (l : list stmt) : Forall P l := match l with [] => Forall_nil _ | s :: l => Forall_cons _ (stmt_ind' s) (all l) end) l)
  | s => H_leaf s Logic.I
  end.
End Stmts.
Definition any (u : nat) (p : place) : Prop := True.
Definition fine (l : list (Z * option target)) : Prop := forall k t, In (k, t) l -> t <> None.
Definition few (l : list (Z * list label)) : Prop := forall k ls, In (k, ls) l -> (length (defaults ls) <= 1)%nat.
Lemma fine_app : forall l m, fine (l ++ m) -> fine l /\ fine m.
Proof. intros l m H. split; intros k t X; apply (H k), in_or_app; auto. Qed.
Lemma few_app : forall l m, few (l ++ m) -> few l /\ few m.
Proof. intros l m H. split; intros k t X; apply (H k), in_or_app; auto. Qed.
Definition derive (s : stmt) : Prop := forall f xs c, grammar s = true -> plain s = true -> FR any (ctxs c) f -> fine (jumps f xs s) -> fits (own s) (ctxs c) ->
  few (switches s) -> exists n c', W xs c n c' /\ erase n = s.
Definition derive_in (ls : list label) (s : stmt) : Prop := forall f c, FR any (ctxs c) f -> fine (jumps f (names ls) s) ->
  fits (ls ++ own s) (ctxs c) -> few (switches s) -> exists b c', Ws c ls b c' /\ part b = (ls, s) /\ erase (last b (NExp None)) = s.
Lemma derive_labels : forall ls c, fits ls (ctxs c) -> exists ns c', L c ls ns c'.
Proof.
  intros [|a l] c H; [eexists _, _; apply L_no|]. destruct (put_pr (ctr c) (a :: l) (ctxs c) H) as [cs E]. eexists _, _. apply L_some, E.
Qed.
Lemma fits_Gr : forall l m pl c c', fits (l ++ m) c -> Gr l pl c c' -> fits m c'.
Proof. intros l m pl c c' H [_ [cs [ds [-> [_ [E _]]]]]]. apply fits_after with l; [exact H|exact E]. Qed.
Lemma derive_sub : forall ls s, derive s -> grammar s = true -> plain s = true -> derive_in ls s.
Proof.
  intros ls s D G Pl f c F J Fi Fe. destruct (derive_labels ls c (fits_before _ _ _ Fi)) as [ns [c1 HL]]. pose proof (L_Gr _ _ _ _ HL) as GR.
  destruct (D f (names ls) c1 G Pl (FR_Gr _ _ _ _ _ _ GR F) J (fits_Gr _ _ _ _ _ Fi GR) Fe) as [n [c2 [HW E]]].
  exists (ns ++ [n]), c2. split; [apply Ws_ with c1; [exact HL|exact HW]|]. rewrite (L_part _ _ _ _ n HL), last_last, E. split; reflexivity.
Qed.
Lemma FR_loop : forall c f xs k, FR any (ctxs c) f -> FR any (ctxs (push_loop xs c)) (Loop k xs :: f).
Proof. intros c f xs k F. constructor; [|exact F]. cbn. repeat (split; [reflexivity|]). split; exact Logic.I. Qed.
Lemma derive_block : forall n l, (length l <= n)%nat -> Forall derive l -> apart l = true -> forallb grammar l = true -> forall f c, FR any (ctxs c) f ->
  fine (items (fun xs s => jumps f xs s) [] l) -> fits (flat_map own l) (ctxs c) -> few (flat_map switches l) -> exists b c', Wb c b c' /\ map erase b = l.
Proof.
  induction n as [|n IH]; intros l Hn D A G f c F J Fi Fe.
  - destruct l; [|cbn in Hn; lia]. exists [], c. split; [apply Wb_end with []; apply L_no|reflexivity].
  - (* after the labels *)
    assert (REST : forall ls c0 ns c1 l, L c0 ls ns c1 -> (length l <= Datatypes.S n)%nat -> Forall derive l -> nlabs l = true -> apart l = true -> forallb grammar l = true ->
              FR any (ctxs c1) f -> fine (items (fun xs s => jumps f xs s) (names ls) l) -> fits (flat_map own l) (ctxs c1) -> few (flat_map switches l) ->
              exists b c', Wb c0 (ns ++ b) c' /\ map erase b = l).
    { clear l Hn D A G c F J Fi Fe. intros ls c0 ns c1 l HL Hn D N A G F J Fi Fe. destruct l as [|s l].
      - exists [], c1. rewrite app_nil_r. split; [apply Wb_end with ls; exact HL|reflexivity].
      - inversion D; subst. cbn [forallb] in G. apply andb_prop in G as [G G']. cbn [length] in Hn.
        assert (A' : apart l = true) by (destruct s; try exact A; discriminate).
        cbn [flat_map] in Fi, Fe. apply few_app in Fe as [Fe Fe'].
        assert (X : (exists d ds, s = SDecl d ds) \/ plain s = true) by (destruct s; try (right; reflexivity); [left; eexists _, _; reflexivity|discriminate]).
        destruct X as [[d [ds ->]]|Pl].
        + cbn [own app] in Fi. destruct (IH l ltac:(lia) H2 A' G' f c1 F J Fi Fe') as [b [c2 [HW E]]].
          exists (NDecl d ds :: b), c2. split; [apply Wb_decl with ls c1; [exact HL|exact HW]|]. cbn [map erase]. rewrite E. reflexivity.
        + rewrite (items_plain _ _ _ _ Pl) in J. apply fine_app in J as [J J'].
          destruct (H1 f (names ls) c1 G Pl F J (fits_before _ _ _ Fi) Fe) as [nd [c2 [HW E]]].
          pose proof (proj1 W_ctxs _ _ _ _ HW) as GR. rewrite E in GR.
          destruct (IH l ltac:(lia) H2 A' G' f c2 (FR_Gr _ _ _ _ _ _ GR F) J' (fits_Gr _ _ _ _ _ Fi GR) Fe') as [b [c3 [HW' E']]].
          exists (nd :: b), c3. split; [apply Wb_stmt with ls c1 c2; [exact HL|exact HW|exact HW']|]. cbn [map]. rewrite E, E'. reflexivity. }
    destruct (nlabs l) eqn:N.
    + destruct (REST [] c [] c l (L_no c) Hn D N A G F J Fi Fe) as [b [c' [HW E]]]. exists b, c'. split; [exact HW|exact E].
    + destruct l as [|s l]; [discriminate|]. destruct s as [ | | | | | | | | | | | | |a ls]; try discriminate. cbn [flat_map own switches app] in Fi, Fe.
      change (fits ((a :: ls) ++ flat_map own l) (ctxs c)) in Fi.
      destruct (derive_labels (a :: ls) c (fits_before _ _ _ Fi)) as [ns [c1 HL]]. pose proof (L_Gr _ _ _ _ HL) as GR. inversion D; subst.
      destruct (REST (a :: ls) c ns c1 l HL) as [b [c' [HW E]]]; auto.
      * cbn [length] in Hn. lia.
      * destruct l as [|x l]; [reflexivity|]. destruct x; try reflexivity. discriminate.
      * destruct l as [|x l]; [reflexivity|]. destruct x; try exact A. discriminate.
      * exact (FR_Gr _ _ _ _ _ _ GR F).
      * exact (fits_Gr _ _ _ _ _ Fi GR).
      * exists (ns ++ b), c'. split; [exact HW|]. rewrite map_app, E. inversion HL; reflexivity.
Qed.
Ltac ands H := repeat (let H' := fresh "G" in apply andb_prop in H as [H H']).
Lemma derive_all : forall s, derive s.
Proof.
  apply stmt_ind'.
  - intros k c ls s IH f xs st G Pl F J Fi Fe. cbn [grammar jumps own switches] in *. ands G.
    destruct (derive_sub ls s IH G0 G1 f st F J Fi Fe) as [b [c1 [HW [E _]]]]. exists (NIf k c b None), c1. split; [apply W_if with ls; assumption|].
    er. rewrite E. reflexivity.
  - intros k c ls s ms u IH IH' f xs st G Pl F J Fi Fe. cbn [grammar jumps own switches] in *. ands G.
    apply fine_app in J as [J J']. apply few_app in Fe as [Fe Fe'].
    destruct (derive_sub ls s IH G3 G4 f st F J (fits_before _ _ _ Fi) Fe) as [b [c1 [HW [E E2]]]].
    pose proof (proj1 (proj2 W_ctxs) _ _ _ _ HW) as GR. unfold sown in GR. rewrite E in GR. cbn [fst snd] in GR.
    destruct (derive_sub ms u IH' G0 G1 f c1 (FR_Gr _ _ _ _ _ _ GR F) J' (fits_Gr _ _ _ _ _ Fi GR) Fe') as [b' [c2 [HW' [E' E2']]]].
    exists (NIf k c b (Some b')), c2. split; [apply W_else with ls c1 ms; [assumption|assumption|assumption|rewrite E2; apply negb_true_iff; assumption]|].
    er. rewrite E, E'. reflexivity.
  - intros k c ls s IH f xs st G Pl F J Fi Fe. cbn [grammar jumps own switches] in *. ands G.
    destruct (derive_sub ls s IH G0 G1 (Sw k xs :: f) (push_switch xs st)) as [b [c1 [HW [E _]]]].
    + constructor; [|exact F]. cbn. repeat (split; [reflexivity|]). exact Logic.I.
    + exact J.
    + unfold fits. cbn [push_switch ctxs room c_sw c_def]. exact (Fe k _ (or_introl eq_refl)).
    + intros j m X. apply (Fe j). right. exact X.
    + eexists _, _. split; [apply W_switch with (1 := G) (2 := HW)|]. er. rewrite E. reflexivity.
  - intros k c ls s IH f xs st G Pl F J Fi Fe. cbn [grammar jumps own switches] in *. ands G.
    destruct (derive_sub ls s IH G0 G1 (Loop k xs :: f) (push_loop xs st) (FR_loop _ _ _ _ F) J Fi Fe) as [b [c1 [HW [E _]]]].
    eexists _, _. split; [apply W_while with (1 := G) (2 := HW)|]. er. rewrite E. reflexivity.
  - intros k ls s j e IH f xs st G Pl F J Fi Fe. cbn [grammar jumps own switches] in *. ands G.
    destruct (derive_sub ls s IH G0 G (Loop k xs :: f) (push_loop xs st) (FR_loop _ _ _ _ F) J Fi Fe) as [b [c1 [HW [E _]]]].
    eexists _, _. split; [apply W_do with (1 := HW)|]. er. rewrite E. reflexivity.
  - intros k fi c i ls s IH f xs st G Pl F J Fi Fe. cbn [grammar jumps own switches] in *. ands G.
    destruct (derive_sub ls s IH G0 G1 (Loop k xs :: f) (push_loop xs st) (FR_loop _ _ _ _ F) J Fi Fe) as [b [c1 [HW [E _]]]].
    eexists _, _. split; [apply W_for with (1 := G) (2 := HW)|]. er. rewrite E. reflexivity.
  - intros l D f xs st G Pl F J Fi Fe. cbn [grammar jumps own switches] in *. ands G.
    destruct (derive_block (length l) l (le_n _) D G G0 f st F J Fi Fe) as [b [c1 [HW E]]]. exists (NBlock b), c1.
    split; [apply W_block; exact HW|]. er. rewrite E. reflexivity.
  - intros s H f xs st G Pl F J Fi Fe. destruct s; try contradiction; try discriminate.
    + eexists _, _. split; [apply W_exp|reflexivity].
    + eexists _, _. split; [apply W_ret|reflexivity].
    + eexists _, _. split; [apply W_goto|reflexivity].
    + destruct (break_pr any x (ctxs st) f F) as [a E]; [exact (J k _ (or_introl eq_refl))|].
      eexists _, _. split; [apply W_break with (1 := E)|reflexivity].
    + destruct (cont_pr any x (ctxs st) f F) as [a E]; [exact (J k _ (or_introl eq_refl))|].
      eexists _, _. split; [apply W_cont with (1 := E)|reflexivity].
Qed.
