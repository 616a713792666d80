(** Proofs for JmpModel.v: function bodies. *)
From Coq Require Import Ascii String ZArith List Bool Lia Arith.
From Verif Require Import JmpSpec JmpModel JmpProofs JmpMain JmpSem JmpGoto.
Import ListNotations.
Local Open Scope string_scope.
Local Open Scope Z_scope.
Local Open Scope list_scope.

(** * What is accepted *)
Lemma body_inv : forall t l r, body t = Ok (l, r) -> exists l0 s, Wb (St 0 [] []) l0 s /\ t = flat_map pr (map erase l0) ++ RB :: r /\ same (labs s) (NBlock l0) (NBlock l).
Proof.
  intros t l r H. unfold body in H. bi3 H. destruct (proj2 (proj2 (read_ok _)) _ _ _ _ _ E) as [HW ->]. bi H.
  pose proof (proj1 (goto_ok (labs s) (NBlock l0)) _ E0) as SA. rewrite goto_block in E0. bi E0. injection E0 as <-. injection H as <- <-.
  exists l0, s. split; [exact HW|]. split; [reflexivity|exact SA].
Qed.
Lemma body_tree : forall t l r, body t = Ok (l, r) -> LB :: t = pr (erase (NBlock l)) ++ r /\ grammar (erase (NBlock l)) = true.
Proof.
  intros t l r H. destruct (body_inv _ _ _ H) as [l0 [s [HW [-> SA]]]]. rewrite (sa_erase _ _ _ SA). er. cbn [pr app].
  split; [rewrite <- app_assoc; reflexivity|]. destruct (proj2 (proj2 W_grammar) _ _ _ HW) as [A G]. cbn [grammar]. rewrite A, G. reflexivity.
Qed.
Lemma body_places : forall t l r, body t = Ok (l, r) -> NoDup (map fst (places (NBlock l))) /\
  flat_map (fun q => match snd q with PLab ls => ls | _ => [] end) (places (NBlock l)) = labels (erase (NBlock l)).
Proof.
  intros t l r H. destruct (body_inv _ _ _ H) as [l0 [s [HW [-> SA]]]]. rewrite (sa_erase _ _ _ SA), (sa_places _ _ _ SA). split.
  - exact (proj1 (proj2 (proj2 W_rng) _ _ _ HW)).
  - er. cbn [labels places]. rewrite <- (proj2 (proj2 (proj2 W_labs) _ _ _ HW)).
    induction (flat_map places l0) as [|[u p] q IH]; [reflexivity|]. cbn [flat_map plabs snd fst]. rewrite flat_map_app, IH.
    destruct p; cbn [flat_map fst app]; rewrite ?app_nil_r; reflexivity.
Qed.
Lemma Forall2_comp : forall (A B C : Type) (R1 : A -> B -> Prop) (R2 : A -> C -> Prop) (R : B -> C -> Prop) a b c,
  (forall x y z, R1 x y -> R2 x z -> R y z) -> Forall2 R1 a b -> Forall2 R2 a c -> Forall2 R b c.
Proof.
  intros A B C R1 R2 R a b c H F. revert c. induction F; intros c G; inversion G; subst; constructor; [eapply H; eauto|apply IHF; assumption].
Qed.
Lemma body_jumps : forall t l r, body t = Ok (l, r) ->
  Forall2 (right_jump (places (NBlock l))) (gotos (NBlock l)) (jumps [] [] (erase (NBlock l))).
Proof.
  intros t l r H. destruct (body_inv _ _ _ H) as [l0 [s [HW [-> SA]]]]. rewrite (sa_erase _ _ _ SA), (sa_places _ _ _ SA).
  pose proof (proj2 (proj2 W_jumps) _ _ _ HW (fun u p => In (u, p) (places (NBlock l0))) [] (Forall2_nil _) (fun u p X => X)) as J.
  refine (Forall2_comp _ _ _ _ _ _ _ _ _ _ (sa_set _ _ _ SA) J). intros [k1 g] [k2 u] [k3 j] [A B] [C D]. cbn [fst snd] in *.
  unfold right_jump. cbn [fst snd]. split; [congruence|]. destruct g as [x|v].
  - subst j. destruct B as [B N]. destruct u as [u|]; [|destruct (N eq_refl)]. symmetry in B. apply find_label_in in B as [ls [I X]].
    rewrite (proj1 (proj2 (proj2 W_labs) _ _ _ HW)) in I. cbn [labs] in I. rewrite app_nil_r in I. apply in_rev in I. apply plabs_in in I.
    exists u, ls. auto.
  - subst u. destruct D as [k [[-> P]|[-> P]]]; exists v; auto.
Qed.
Lemma body_tables : forall t l r, body t = Ok (l, r) ->
  Forall2 (right_table (places (NBlock l))) (tables (NBlock l)) (switches (erase (NBlock l))).
Proof.
  intros t l r H. destruct (body_inv _ _ _ H) as [l0 [s [HW [-> SA]]]]. rewrite (sa_erase _ _ _ SA), (sa_places _ _ _ SA), (sa_tables _ _ _ SA).
  exact (proj2 (proj2 W_tables) _ _ _ HW).
Qed.
Lemma Forall2_right : forall (A B : Type) (R : A -> B -> Prop) l m b, Forall2 R l m -> In b m -> exists a, In a l /\ R a b.
Proof.
  intros A B R l m b. induction 1 as [|x y l m H F IH]; intros X; [destruct X|]. destruct X as [->|X].
  - exists x. split; [left; reflexivity|exact H].
  - destruct (IH X) as [a [I K]]. exists a. split; [right; exact I|exact K].
Qed.
Lemma body_valid : forall t l r, body t = Ok (l, r) -> valid (erase (NBlock l)).
Proof.
  intros t l r H. pose proof (body_jumps _ _ _ H) as J. pose proof (body_tables _ _ _ H) as T. constructor.
  - intros k q X. destruct (Forall2_right _ _ _ _ _ _ J X) as [g [_ [_ G]]]. cbn [snd] in G. destruct q; [discriminate|destruct G].
  - intros k x X. destruct (Forall2_right _ _ _ _ _ _ J X) as [g [_ [_ G]]]. cbn [snd] in G. destruct G as [u [ls [_ [I N]]]].
    rewrite <- (proj2 (body_places _ _ _ H)). unfold names in *. apply in_flat_map in N as [a [A B]]. apply in_flat_map. exists a. split; [|exact B].
    apply in_flat_map. exists (u, PLab ls). split; [exact I|exact A].
  - destruct (body_inv _ _ _ H) as [l0 [s [HW [_ SA]]]]. rewrite (sa_erase _ _ _ SA). er. cbn [own].
    destruct (proj2 (proj2 W_ctxs) _ _ _ HW) as [F _]. exact F.
  - intros k ls X. destruct (Forall2_right _ _ _ _ _ _ T X) as [[k1 [cs df]] [_ [_ [_ [D _]]]]]. cbn [snd] in D. rewrite <- D, map_length. destruct df; cbn; lia.
Qed.
Lemma body_stmt : forall t l r, body t = Ok (l, r) -> LB :: t = pr (erase (NBlock l)) ++ r /\ grammar (erase (NBlock l)) = true /\ valid (erase (NBlock l)).
Proof. intros t l r H. destruct (body_tree _ _ _ H). pose proof (body_valid _ _ _ H). auto. Qed.
Lemma hit_goto : forall P gs js k x, Forall2 (hit P) gs js -> In (k, inl x) gs -> In (k, Some (Labelled x)) js.
Proof.
  intros P gs js k x F. induction F as [|[k1 g] [k2 j] gs js [A B] F IH]; intros X; [destruct X|]. destruct X as [X|X]; [|right; exact (IH X)].
  injection X as -> ->. cbn [fst snd] in *. subst. left; reflexivity.
Qed.
Lemma body_accepts : forall t r ss, LB :: t = pr (SBlock ss) ++ r -> grammar (SBlock ss) = true -> valid (SBlock ss) ->
  exists l, body t = Ok (l, r) /\ erase (NBlock l) = SBlock ss.
Proof.
  intros t r ss E G [V1 V2 [V3 V3'] V4]. injection E as ->.
  destruct (derive_all (SBlock ss) [] [] (St 0 [] [])) as [n [s [HW En]]]; auto.
  { constructor. }
  { exact (conj V3 V3'). }
  assert (X : exists l0, n = NBlock l0) by (inversion HW; subst; er_in En; try discriminate En; eexists; reflexivity). destruct X as [l0 ->].
  inversion HW as [ | | | | | | | | | | |? ? ? ? HB]; subst. er_in En. injection En as En.
  pose proof (proj2 (proj2 write_ok) _ _ _ HB) as WR.
  assert (GT : exists m, goto_labels (labs s) (NBlock l0) = Ok m).
  { apply (proj2 (goto_ok (labs s) (NBlock l0))). intros k x X.
    pose proof (proj2 (proj2 W_jumps) _ _ _ HB (fun u p => True) [] (Forall2_nil _) (fun u p X => Logic.I)) as J. cbn [gl] in X.
    assert (K : In (k, Some (Labelled x)) (jumps [] [] (SBlock ss))).
    { cbn [jumps]. rewrite <- En. exact (hit_goto _ _ _ k x J X). }
    apply V2 in K. cbn [labels] in K. rewrite <- En in K. destruct (proj2 (proj2 W_labs) _ _ _ HB) as [Q1 Q2]. rewrite <- Q2 in K.
    apply names_in in K as [ls [u [I N]]]. apply find_label_pr with ls u; [|exact N]. rewrite Q1. apply in_or_app. left. apply in_rev in I. exact I. }
  destruct GT as [m GT]. pose proof (proj1 (goto_ok _ _) _ GT) as SA. pose proof GT as GT'. rewrite goto_block in GT'. bi GT'. injection GT' as <-.
  exists a. split.
  - unfold body. rewrite <- En. rewrite <- app_assoc. cbn [app]. rewrite WR; [|rewrite app_length; cbn [length]; lia]. cbn [bind]. rewrite GT. reflexivity.
  - rewrite (sa_erase _ _ _ SA). er. rewrite En. reflexivity.
Qed.
Lemma body_iff : forall t r, (exists l, body t = Ok (l, r)) <->
  (exists ss, LB :: t = pr (SBlock ss) ++ r /\ grammar (SBlock ss) = true /\ valid (SBlock ss)).
Proof.
  intros t r. split.
  - intros [l H]. destruct (body_tree _ _ _ H) as [A B]. pose proof (body_valid _ _ _ H) as C. rewrite erase_block in *. exists (map erase l). auto.
  - intros [ss [A [B C]]]. destruct (body_accepts _ _ _ A B C) as [l [H _]]. exists l. exact H.
Qed.
Lemma unambiguous : forall ss ss' r r', pr (SBlock ss) ++ r = pr (SBlock ss') ++ r' -> grammar (SBlock ss) = true -> grammar (SBlock ss') = true ->
  valid (SBlock ss) -> valid (SBlock ss') -> ss = ss' /\ r = r'.
Proof.
  intros ss ss' r r' E G G' V V'. destruct (body_accepts (tl (pr (SBlock ss) ++ r)) r ss) as [l [A B]]; [reflexivity|exact G|exact V|].
  destruct (body_accepts (tl (pr (SBlock ss) ++ r)) r' ss') as [l' [A' B']]; [rewrite E; reflexivity|exact G'|exact V'|].
  rewrite A in A'. injection A' as <- <-. rewrite B in B'. injection B' as <-. split; reflexivity.
Qed.

(** * The parser ends *)
Lemma bind_fuel : forall A B (x : res A) (f : A -> res B), x <> Fuel -> (forall a, x = Ok a -> f a <> Fuel) -> bind x f <> Fuel.
Proof. intros A B [a| |] f H K; cbn [bind]; [apply K; reflexivity|discriminate|contradiction]. Qed.
Lemma more_fuel : forall n t, (length t <= n)%nat -> more t <> Fuel.
Proof.
  induction n; intros t Hn; [destruct t; [discriminate|cbn in Hn; lia]|]. destruct t as [|a t]; [discriminate|]. destruct a; try discriminate.
  destruct t as [|b t]; [discriminate|]. destruct b; try discriminate.
  change (more (Comma :: Dc d :: t)) with (do (l, r) <- more t; Ok (d :: l, r)). apply bind_fuel; [apply IHn; cbn in Hn; lia|intros [? ?] _; discriminate].
Qed.
Lemma declaration_fuel : forall t, declaration t <> Fuel.
Proof.
  intros [|a t]; [discriminate|]. destruct a; try discriminate. unfold declaration. apply bind_fuel; [apply more_fuel with (1 := le_n _)|].
  intros [l r] _. apply bind_fuel; [destruct r as [|[]]; discriminate|discriminate].
Qed.
Lemma clauses_fuel : forall n cl t, clauses n cl t <> Fuel.
Proof.
  induction n; intros cl t; [discriminate|]. destruct t as [|a t]; [discriminate|]. destruct a; try discriminate. cbn [clauses].
  destruct t as [|b t]; [discriminate|]. destruct b; try discriminate. apply bind_fuel; [apply more_fuel with (1 := le_n _)|]. intros [l r] _.
  destruct r as [|c r]; [discriminate|]. destruct c; try discriminate. destruct (Nat.eqb (Datatypes.S cl) 1); [|discriminate].
  apply bind_fuel; [apply IHn|]. intros [[[[ds v] c] m] r'] _. discriminate.
Qed.
Lemma cond_fuel : forall semi cl t, cond_declaration semi cl t <> Fuel.
Proof.
  intros semi cl t. rewrite cond_finish. apply bind_fuel; [apply clauses_fuel|]. intros [[[[ds v] c] m] r] _. unfold finish.
  destruct (Nat.ltb c 2 && negb (is_stop semi r)).
  - destruct r as [|a r]; [discriminate|]. destruct a; try discriminate. destruct (is_stop semi r); discriminate.
  - destruct v; [|discriminate]. cbn [negb]. destruct (is_stop semi r); discriminate.
Qed.
Lemma add_case_fuel : forall k u c, add_case k u c <> Fuel.
Proof. induction c as [|a c IH]; [discriminate|]. cbn [add_case]. destruct (c_sw a); [discriminate|]. apply bind_fuel; [exact IH|discriminate]. Qed.
Lemma add_default_fuel : forall k u c, add_default k u c <> Fuel.
Proof. induction c as [|a c IH]; [discriminate|]. cbn [add_default]. destruct (c_sw a); [destruct (c_def a); discriminate|]. apply bind_fuel; [exact IH|discriminate]. Qed.
Lemma label_fuel : forall n u c t, (length t <= n)%nat -> label_loop u c t <> Fuel.
Proof.
  induction n; intros u c t Hn; [destruct t; [discriminate|cbn in Hn; lia]|]. destruct t as [|a t]; [discriminate|]. destruct a; try discriminate.
  - destruct t as [|b t]; [discriminate|]. destruct b; try discriminate. destruct t as [|b t]; [discriminate|]. destruct b; try discriminate.
    + change ((do c <- add_case k u c; do (ls, cs, r) <- label_loop u c t; Ok (LCase k e None :: ls, cs, r)) <> Fuel).
      apply bind_fuel; [apply add_case_fuel|]. intros c' _. apply bind_fuel; [apply IHn; cbn in Hn; lia|]. intros [[? ?] ?] _. discriminate.
    + destruct t as [|b t]; [discriminate|]. destruct b; try discriminate. destruct t as [|b t]; [discriminate|]. destruct b; try discriminate.
      change ((do c <- add_case k u c; do (ls, cs, r) <- label_loop u c t; Ok (LCase k e (Some e0) :: ls, cs, r)) <> Fuel).
      apply bind_fuel; [apply add_case_fuel|]. intros c' _. apply bind_fuel; [apply IHn; cbn in Hn; lia|]. intros [[? ?] ?] _. discriminate.
  - change ((do c <- add_default k u c; match t with Colon :: r => do (ls, cs, r) <- label_loop u c r; Ok (LDef k :: ls, cs, r) | _ => Err end) <> Fuel).
    apply bind_fuel; [apply add_default_fuel|]. intros c' _. destruct t as [|b t]; [discriminate|]. destruct b; try discriminate.
    apply bind_fuel; [apply IHn; cbn in Hn; lia|]. intros [[? ?] ?] _. discriminate.
  - destruct t as [|b t]; [discriminate|]. destruct b; try discriminate.
    change ((do (ls, cs, r) <- label_loop u c t; Ok (LId k x :: ls, cs, r)) <> Fuel). apply bind_fuel; [apply IHn; cbn in Hn; lia|]. intros [[? ?] ?] _. discriminate.
Qed.
Lemma label_stmt_fuel : forall s t, label_stmt s t <> Fuel.
Proof.
  intros s t. unfold label_stmt. apply bind_fuel; [apply label_fuel with (1 := le_n _)|]. intros [[[|a ls] cs] r] _; discriminate.
Qed.
Lemma resolve_fuel : forall b x c, resolve b x c <> Fuel.
Proof.
  induction c as [|a c IH]; [discriminate|]. cbn [resolve]. destruct (b && c_sw a); [exact IH|]. destruct x as [[k y]|]; [|discriminate].
  destruct (existsb (String.eqb y) (c_names a)); [discriminate|exact IH].
Qed.
Lemma semi_fuel : forall t, skip_semi t <> Fuel. Proof. intros [|[]]; discriminate. Qed.
Lemma name_fuel : forall t, jump_name t <> Fuel. Proof. intros [|[] t]; try discriminate. destruct t as [|[]]; discriminate. Qed.
Lemma init_fuel : forall t, for_init t <> Fuel.
Proof.
  assert (A : forall t, (let '(e, r) := opt_exp t in do r <- skip_semi r; Ok (FExp e, r)) <> Fuel)
    by (intros t; destruct (opt_exp t); apply bind_fuel; [apply semi_fuel|discriminate]).
  intros [|a t]; [apply A|]. destruct a; try apply A. unfold for_init. apply bind_fuel; [apply declaration_fuel|]. intros [? ?] _. discriminate.
Qed.
Lemma for_cond_fuel : forall t, for_cond t <> Fuel.
Proof.
  assert (A : forall t, (do (c, r) <- cond_declaration true 1 t; Ok (Some c, r)) <> Fuel)
    by (intros t; apply bind_fuel; [apply cond_fuel|intros [? ?] _; discriminate]).
  intros [|a t]; [apply A|]. destruct a; try apply A. discriminate.
Qed.
(** Nothing is read back. *)
Lemma init_len : forall t f r, for_init t = Ok (f, r) -> (length r <= length t)%nat.
Proof.
  assert (A : forall t f r, (let '(e, r) := opt_exp t in do r <- skip_semi r; Ok (FExp e, r)) = Ok (f, r) -> (length r <= length t)%nat).
  { intros t f r H. destruct (opt_exp t) as [e t1] eqn:E. apply opt_exp_ok in E. bi H. injection H as <- <-. apply skip_semi_ok in E0. subst.
    rewrite app_length. cbn [length]. lia. }
  intros [|a t] f r H; [apply A in H; exact H|]. destruct a; try (apply A in H; exact H). unfold for_init in H. bi2 H. injection H as <- <-.
  apply declaration_ok in E. subst. cbn [length]. rewrite app_length. cbn [length]. lia.
Qed.
Lemma for_cond_len : forall t c r, for_cond t = Ok (c, r) -> (length r <= length t)%nat.
Proof.
  assert (A : forall t c r, (do (c, r) <- cond_declaration true 1 t; Ok (Some c, r)) = Ok (c, r) -> (length r <= length t)%nat).
  { intros t c r H. bi2 H. injection H as <- <-. apply cond1_ok in E as [_ ->]. rewrite app_length. cbn [length]. lia. }
  intros [|a t] c r H; [apply A in H; exact H|]. destruct a; try (apply A in H; exact H). injection H as <- <-. cbn [length]. lia.
Qed.
Lemma sub_len : forall n s t b s' r, sub n s t = Ok (b, s', r) -> (length r <= length t)%nat.
Proof. intros n s t b s' r H. apply (proj1 (proj2 (read_ok n))) in H as [ls [nd [_ [_ [_ [-> _]]]]]]. rewrite !app_length. lia. Qed.
Lemma parse_len : forall n xs s t nd s' r, parse n xs s t = Ok (nd, s', r) -> (length r < length t)%nat.
Proof.
  intros n xs s t nd s' r H. apply (proj1 (read_ok n)) in H as [_ [-> [P _]]]. destruct (plain_head _ P) as [a [t [-> _]]]. rewrite app_length. cbn [length]. lia.
Qed.
Lemma fuel_ok : forall n,
  (forall xs s t, (2 * length t + 1 <= n)%nat -> parse n xs s t <> Fuel) /\
  (forall s t, (2 * length t + 2 <= n)%nat -> sub n s t <> Fuel) /\
  (forall s t, (2 * length t + 2 <= n)%nat -> block n s t <> Fuel).
Proof.
  induction n as [|n [I1 [I2 I3]]]; [split; [|split]; intros; exfalso; lia|]. split; [|split].
  - intros xs s t Hn. cbn [parse]. destruct t as [|a t]; [discriminate|]. cbn [length] in Hn. destruct a; try discriminate.
    + destruct t as [|b t]; [discriminate|]. destruct b; try discriminate. cbn [length] in Hn. apply bind_fuel; [apply cond_fuel|]. intros [c r] E.
      apply cond0_ok in E as [_ ->]. rewrite app_length in Hn. cbn [length] in Hn. apply bind_fuel; [apply I2; lia|]. intros [[b s1] r1] E. apply sub_len in E.
      destruct r1 as [|a r1]; [discriminate|]. destruct a; try discriminate. cbn [length] in E. apply bind_fuel; [apply I2; lia|]. intros [[? ?] ?] _. discriminate.
    + destruct t as [|b t]; [discriminate|]. destruct b; try discriminate. cbn [length] in Hn. apply bind_fuel; [apply cond_fuel|]. intros [c r] E.
      apply cond0_ok in E as [_ ->]. rewrite app_length in Hn. cbn [length] in Hn. apply bind_fuel; [apply I2; lia|]. intros [[? ?] ?] _. discriminate.
    + destruct t as [|b t]; [discriminate|]. destruct b; try discriminate. cbn [length] in Hn. apply bind_fuel; [apply cond_fuel|]. intros [c r] E.
      apply cond1_ok in E as [_ ->]. rewrite app_length in Hn. cbn [length] in Hn. apply bind_fuel; [apply I2; lia|]. intros [[? ?] ?] _. discriminate.
    + apply bind_fuel; [apply I2; lia|]. intros [[b s1] r] _. destruct r as [|[]]; try discriminate. destruct r as [|[]]; try discriminate.
      destruct r as [|[]]; try discriminate. destruct r as [|[]]; try discriminate. destruct r as [|[]]; discriminate.
    + destruct t as [|b t]; [discriminate|]. destruct b; try discriminate. cbn [length] in Hn. apply bind_fuel; [apply init_fuel|]. intros [f r] E. apply init_len in E.
      apply bind_fuel; [apply for_cond_fuel|]. intros [c r1] E1. apply for_cond_len in E1. destruct (opt_exp r1) as [i r2] eqn:E2. apply opt_exp_ok in E2. subst r1.
      rewrite app_length in E1. destruct r2 as [|a r2]; [discriminate|]. destruct a; try discriminate. cbn [length] in E1. apply bind_fuel; [apply I2; lia|]. intros [[? ?] ?] _. discriminate.
    + destruct t as [|[] t]; try discriminate. destruct t as [|[] t]; discriminate.
    + apply bind_fuel; [apply name_fuel|]. intros [x r] _. apply bind_fuel; [apply resolve_fuel|discriminate].
    + apply bind_fuel; [apply name_fuel|]. intros [x r] _. apply bind_fuel; [apply resolve_fuel|discriminate].
    + destruct (opt_exp t). apply bind_fuel; [apply semi_fuel|discriminate].
    + destruct t as [|[] t]; discriminate.
    + apply bind_fuel; [apply I3; lia|]. intros [[? ?] ?] _. discriminate.
  - intros s t Hn. cbn [sub].
    assert (CASE : (do (ls, ns, s, t) <- label_stmt s t; do (b, s, t) <- parse n (names ls) s t; Ok (ns ++ [b], s, t)) <> Fuel).
    { apply bind_fuel; [apply label_stmt_fuel|]. intros [[[ls ns] s1] t1] E. apply L_ok in E as [_ [-> _]]. rewrite app_length in Hn.
      apply bind_fuel; [apply I1; lia|]. intros [[? ?] ?] _. discriminate. }
    destruct t as [|a t]; [exact CASE|]. destruct a; try exact CASE. cbn [length] in Hn. apply bind_fuel; [apply I3; lia|]. intros [[? ?] ?] _. discriminate.
  - intros s t Hn. cbn [block]. apply bind_fuel; [apply label_stmt_fuel|]. intros [[[ls ns] s1] t1] E. apply L_ok in E as [_ [-> _]]. rewrite app_length in Hn.
    assert (CASE : (do (a, s, t) <- parse n (names ls) s1 t1; do (b, s, t) <- block n s t; Ok (ns ++ a :: b, s, t)) <> Fuel).
    { apply bind_fuel; [apply I1; lia|]. intros [[a s2] t2] E. apply parse_len in E. apply bind_fuel; [apply I3; lia|]. intros [[? ?] ?] _. discriminate. }
    destruct t1 as [|a t1]; [exact CASE|]. destruct a; try exact CASE; [|discriminate]. cbn [length] in Hn. apply bind_fuel; [apply declaration_fuel|]. intros [l r] E.
    apply declaration_ok in E. subst t1. rewrite app_length in Hn. cbn [length] in Hn. apply bind_fuel; [apply I3; lia|]. intros [[? ?] ?] _. discriminate.
Qed.
Lemma goto_fuel : forall q n, goto_labels q n <> Fuel.
Proof.
  intros q. assert (ALL : forall b, Forall (fun n => goto_labels q n <> Fuel) b -> goto_all q b <> Fuel).
  { induction 1 as [|n b H F IH]; [discriminate|]. cbn [goto_all]. apply bind_fuel; [exact H|]. intros m _. apply bind_fuel; [exact IH|discriminate]. }
  apply node_ind'; intros; rewrite ?goto_if, ?goto_else, ?goto_switch, ?goto_while, ?goto_do, ?goto_for, ?goto_block;
    try (apply bind_fuel; [apply ALL; assumption|]; intros; discriminate).
  - apply bind_fuel; [apply ALL; assumption|]. intros. apply bind_fuel; [apply ALL; assumption|discriminate].
  - destruct n; try contradiction; try discriminate. cbn [goto_labels]. destruct (find_label x q); discriminate.
Qed.
Lemma body_ends : forall t, body t <> Fuel.
Proof.
  intros t. unfold body. apply bind_fuel; [apply (proj2 (proj2 (fuel_ok _))); lia|]. intros [[l s] r] _. apply bind_fuel; [apply goto_fuel|].
  intros [] _; discriminate.
Qed.
