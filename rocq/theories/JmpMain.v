(** Proofs for JmpModel.v: derivations have the grammar, and are found again from their tokens. *)
From Coq Require Import Ascii String ZArith List Bool Lia Arith.
From Verif Require Import JmpSpec JmpModel JmpProofs.
Import ListNotations.
Local Open Scope string_scope.
Local Open Scope Z_scope.
Local Open Scope list_scope.

(** * The grammar *)
Definition nlabs (l : list stmt) : bool := match l with SLabs _ _ :: _ => false | _ => true end.
Lemma apart_cons : forall s l, plain s = true \/ nlabs l = true -> apart l = true -> apart (s :: l) = true.
Proof.
  intros s l H A. destruct s; try exact A. destruct H as [H|H]; [discriminate|]. destruct l as [|b l]; [reflexivity|].
  destruct b; try exact A. discriminate.
Qed.
Lemma apart_decl : forall d ds l, apart l = true -> apart (SDecl d ds :: l) = true.
Proof. intros d ds l H. exact H. Qed.
Lemma L_apart : forall s ls ns s1 l, L s ls ns s1 -> nlabs l = true -> apart l = true -> forallb grammar l = true ->
  apart (map erase ns ++ l) = true /\ forallb grammar (map erase ns ++ l) = true.
Proof.
  intros s ls ns s1 l [|] N A G; [split; [exact A|exact G]|]. cbn [map erase app forallb]. split; [|exact G].
  apply apart_cons; [right; exact N|exact A].
Qed.
Lemma W_grammar :
  (forall xs s n s', W xs s n s' -> grammar (erase n) = true /\ plain (erase n) = true) /\
  (forall s ls b s', Ws s ls b s' -> exists n, part b = (ls, erase n) /\ last b (NExp None) = n /\ grammar (erase n) = true /\ plain (erase n) = true) /\
  (forall s b s', Wb s b s' -> apart (map erase b) = true /\ forallb grammar (map erase b) = true).
Proof.
  apply W_all; try (intros; split; reflexivity).
  - intros xs s k c ls b s1 C H [n [E [_ [G P]]]]. er. rewrite E. cbn [fst snd grammar plain]. rewrite C, G, P. split; reflexivity.
  - intros xs s k c ls b s1 ms e s2 C H [n [E [La [G P]]]] H' [n' [E' [La' [G' P']]]] Ne. er. rewrite E, E'. cbn [fst snd grammar plain].
    rewrite La in Ne. rewrite C, G, P, G', P', Ne. split; reflexivity.
  - intros xs s k c ls b s1 C H [n [E [_ [G P]]]]. er. rewrite E. cbn [fst snd grammar plain]. rewrite C, G, P. split; reflexivity.
  - intros xs s k c ls b s1 C H [n [E [_ [G P]]]]. er. rewrite E. cbn [fst snd grammar plain]. rewrite C, G, P. split; reflexivity.
  - intros xs s k ls b j e s1 H [n [E [_ [G P]]]]. er. rewrite E. cbn [fst snd grammar plain]. rewrite G, P. split; reflexivity.
  - intros xs s k f c i ls b s1 C H [n [E [_ [G P]]]]. er. rewrite E. cbn [fst snd grammar plain]. rewrite C, G, P. split; reflexivity.
  - intros xs s l s1 H [A G]. er. cbn [grammar plain]. rewrite A, G. split; reflexivity.
  - intros s ls ns s1 n s2 HL H [G P]. exists n. split; [apply L_part with (1 := HL)|]. split; [apply last_last|]. split; [exact G|exact P].
  - intros s ls ns s1 HL. rewrite <- (app_nil_r (map erase ns)). apply L_apart with (1 := HL); reflexivity.
  - intros s ls ns s1 d l b s2 HL H [A G]. rewrite map_app. apply L_apart with (1 := HL); [reflexivity|exact A|exact G].
  - intros s ls ns s1 n s2 b s3 HL H [G P] H' [A G']. rewrite map_app. cbn [map].
    apply L_apart with (1 := HL); [destruct (erase n); (reflexivity || discriminate)|apply apart_cons; [left; exact P|exact A]|].
    cbn [forallb]. rewrite G, G'. reflexivity.
Qed.

(** * Writing *)
Definition begins (a : tok) : bool :=
  match a with KIf _ | KSwitch _ | KWhile _ | KDo _ | KFor _ | KGoto _ | KBreak _ | KCont _ | KRet _ | Ex _ | LB | Semi => true | _ => false end.
Lemma plain_head : forall s, plain s = true -> exists a t, pr s = a :: t /\ begins a = true.
Proof.
  intros s H; destruct s; try discriminate; try (eexists; eexists; split; [reflexivity|reflexivity]).
  destruct e; eexists; eexists; (split; [reflexivity|reflexivity]).
Qed.
Lemma pr_noelse : forall s t, noelse (pr s ++ t) = true.
Proof.
  intros s t. destruct s; try reflexivity; [destruct e; reflexivity|]. destruct l as [k x|k lo hi|k]; try reflexivity. destruct hi; reflexivity.
Qed.
Lemma pr_list_noelse : forall l t, noelse (flat_map pr l ++ RB :: t) = true.
Proof. intros [|s l] t; [reflexivity|]. cbn [flat_map]. rewrite <- app_assoc. apply pr_noelse. Qed.
Lemma begins_nolab : forall a t, begins a = true -> nolab (a :: t) = true.
Proof. intros a t H; destruct a; try discriminate; reflexivity. Qed.
Lemma L_nil : forall s ns s1, L s [] ns s1 -> ns = [] /\ s1 = s.
Proof. intros s ns s1 H. inversion H. split; reflexivity. Qed.
Lemma L_head : forall s ls ns s1 t, L s ls ns s1 -> ls <> [] -> match p_labels ls ++ t with LB :: _ => False | _ => True end.
Proof.
  intros s ls ns s1 t HL N. destruct HL as [|s a l cs P]; [contradiction|]. destruct a as [k x|k lo hi|k]; try exact Logic.I. destruct hi; exact Logic.I.
Qed.
Lemma sub_lab : forall n s t, match t with LB :: _ => False | _ => True end ->
  sub (Datatypes.S n) s t = (do (ls, ns, s, t) <- label_stmt s t; do (b, s, t) <- parse n (names ls) s t; Ok (ns ++ [b], s, t)).
Proof. intros n s [|a t] H; [reflexivity|]. destruct a; try reflexivity. contradiction. Qed.
Lemma parse_lb : forall n xs s t nd s' r, parse (Datatypes.S n) xs s (LB :: t) = Ok (nd, s', r) -> sub (Datatypes.S n) s (LB :: t) = Ok ([nd], s', r).
Proof. intros n xs s t nd s' r H. cbn [parse] in H. cbn [sub]. bi3 H. rewrite E. injection H as <- <- <-. reflexivity. Qed.
Lemma opt_exp_pr : forall e a t, match a with Ex _ => False | _ => True end -> opt_exp (p_opt e ++ a :: t) = (e, a :: t).
Proof. intros [e|] a t H; [reflexivity|]. destruct a; try reflexivity. contradiction. Qed.
Lemma jump_name_pr : forall x r, jump_name (p_name x ++ Semi :: r) = Ok (x, r).
Proof. intros [[k x]|] r; reflexivity. Qed.
Lemma cond_semi : forall c t, repeat_ c = true -> match p_cond c ++ t with Semi :: _ => False | _ => True end.
Proof. intros [[|d [|]] v] t H; try (destruct v; discriminate); destruct v; try discriminate; exact Logic.I. Qed.

Lemma block_stmt : forall n s t ls ns s1 a t1, label_stmt s t = Ok (ls, ns, s1, a :: t1) -> begins a = true ->
  block (Datatypes.S n) s t = (do (a, s, t) <- parse n (names ls) s1 (a :: t1); do (b, s, t) <- block n s t; Ok (ns ++ a :: b, s, t)).
Proof. intros n s t ls ns s1 a t1 H B. cbn [block]. rewrite H. cbn [bind]. destruct a; try reflexivity; discriminate. Qed.

Definition Q1 (xs : list string) (s : st) (nd : node) (s' : st) : Prop := forall n r,
  (2 * length (pr (erase nd)) <= n)%nat -> (ends_if (erase nd) = true -> noelse r = true) ->
  parse n xs s (pr (erase nd) ++ r) = Ok (nd, s', r).
Definition Q2 (s : st) (ls : list label) (b : list node) (s' : st) : Prop := exists nd, part b = (ls, erase nd) /\ last b (NExp None) = nd /\ forall n r,
  (2 * length (p_labels ls ++ pr (erase nd)) + 1 <= n)%nat -> (ends_if (erase nd) = true -> noelse r = true) ->
  sub n s (p_labels ls ++ pr (erase nd) ++ r) = Ok (b, s', r).
Definition Q3 (s : st) (b : list node) (s' : st) : Prop := forall n r,
  (2 * length (flat_map pr (map erase b)) + 1 < n)%nat -> block n s (flat_map pr (map erase b) ++ RB :: r) = Ok (b, s', r).
Ltac fuel n H := destruct n as [|n]; [exfalso; cbn [erase pr p_opt app length] in H; lia|].
Ltac len H := cbn [erase fst snd pr app length] in H; rewrite ?app_length in H; cbn [length] in H; rewrite ?app_length in H; cbn [length] in H;
  rewrite ?app_length in H; cbn [length] in H; rewrite ?app_length; cbn [length]; lia.
Lemma write_ok :
  (forall xs s n s', W xs s n s' -> Q1 xs s n s') /\
  (forall s ls b s', Ws s ls b s' -> Q2 s ls b s') /\
  (forall s b s', Wb s b s' -> Q3 s b s').
Proof.
  apply W_all.
  - intros xs s [e|] n r Hn Hr; fuel n Hn; reflexivity.
  - intros xs s k [e|] n r Hn Hr; fuel n Hn; reflexivity.
  - intros xs s k j x n r Hn Hr; fuel n Hn; reflexivity.
  - intros xs s k x c H n r Hn Hr; fuel n Hn. cbn [erase pr app parse]. rewrite <- app_assoc. cbn [app]. rewrite jump_name_pr. cbn [bind]. rewrite H. reflexivity.
  - intros xs s k x c H n r Hn Hr; fuel n Hn. cbn [erase pr app parse]. rewrite <- app_assoc. cbn [app]. rewrite jump_name_pr. cbn [bind]. rewrite H. reflexivity.
  - intros xs s k c ls b s1 C H [nd [E [La I]]] n r Hn Hr. rewrite erase_if, E in *. fuel n Hn. cbn [fst snd pr app parse] in *.
    rewrite <- !app_assoc. cbn [app]. rewrite (cond0_pr c _ C). cbn [bind]. rewrite <- app_assoc. rewrite I.
    + cbn [bind]. specialize (Hr eq_refl). destruct r as [|a r]; [reflexivity|]. destruct a; try reflexivity. discriminate.
    + len Hn.
    + intros _. exact (Hr eq_refl).
  - intros xs s k c ls b s1 ms e s2 C H [nd [E [La I]]] H' [nd' [E' [La' I']]] Ne n r Hn Hr. rewrite erase_else, E, E' in *. rewrite La in Ne.
    fuel n Hn. cbn [fst snd pr app parse] in *. rewrite <- !app_assoc. cbn [app]. rewrite (cond0_pr c _ C). cbn [bind]. rewrite <- !app_assoc.
    cbn [app]. rewrite I; [|len Hn|rewrite Ne; intros X; discriminate X]. cbn [bind]. rewrite <- app_assoc. rewrite I'; [reflexivity|len Hn|exact Hr].
  - intros xs s k c ls b s1 C H [nd [E [La I]]] n r Hn Hr. rewrite erase_switch, E in *. fuel n Hn. cbn [fst snd pr app parse] in *.
    rewrite <- !app_assoc. cbn [app]. rewrite (cond0_pr c _ C). cbn [bind]. rewrite <- app_assoc. rewrite I; [reflexivity|len Hn|exact Hr].
  - intros xs s k c ls b s1 C H [nd [E [La I]]] n r Hn Hr. rewrite erase_while, E in *. fuel n Hn. cbn [fst snd pr app parse] in *.
    rewrite <- !app_assoc. cbn [app]. change RP with (stop false). rewrite (cond1_pr false c _ C). cbn [bind]. rewrite <- app_assoc.
    rewrite I; [reflexivity|len Hn|exact Hr].
  - intros xs s k ls b j e s1 H [nd [E [La I]]] n r Hn Hr. rewrite erase_do, E in *. fuel n Hn. cbn [fst snd pr app parse] in *.
    rewrite <- !app_assoc. rewrite I; [reflexivity|len Hn|reflexivity].
  - intros xs s k f c i ls b s1 C H [nd [E [La I]]] n r Hn Hr. rewrite erase_for, E in *. fuel n Hn. cbn [fst snd pr app parse] in *.
    assert (F : for_init (p_start f ++ match c with Some c => p_cond c | None => [] end ++ Semi :: p_opt i ++ RP :: p_labels ls ++ pr (erase nd) ++ r)
                = Ok (f, match c with Some c => p_cond c | None => [] end ++ Semi :: p_opt i ++ RP :: p_labels ls ++ pr (erase nd) ++ r)).
    { generalize (match c with Some c => p_cond c | None => [] end ++ Semi :: p_opt i ++ RP :: p_labels ls ++ pr (erase nd) ++ r). intros t.
      destruct f as [d l|[e|]]; try reflexivity. cbn [p_start app]. rewrite <- app_assoc. cbn [app for_init]. rewrite declaration_pr. reflexivity. }
    assert (G : for_cond (match c with Some c => p_cond c | None => [] end ++ Semi :: p_opt i ++ RP :: p_labels ls ++ pr (erase nd) ++ r)
                = Ok (c, p_opt i ++ RP :: p_labels ls ++ pr (erase nd) ++ r)).
    { destruct c as [c|]; [|reflexivity]. pose proof (cond_semi c (Semi :: p_opt i ++ RP :: p_labels ls ++ pr (erase nd) ++ r) C) as N.
      pose proof (cond1_pr true c (p_opt i ++ RP :: p_labels ls ++ pr (erase nd) ++ r) C) as X. cbn [stop] in X.
      destruct (p_cond c ++ Semi :: p_opt i ++ RP :: p_labels ls ++ pr (erase nd) ++ r) as [|a t]; unfold for_cond; [rewrite X; reflexivity|].
      destruct a; try (rewrite X; reflexivity). contradiction. }
    rewrite <- !app_assoc. cbn [app]. rewrite <- !app_assoc. cbn [app]. rewrite <- !app_assoc. rewrite F. cbn [bind]. rewrite G.
    cbn [bind].
    rewrite (opt_exp_pr i RP _ Logic.I). rewrite I; [reflexivity|len Hn|exact Hr].
  - intros xs s l s1 H I n r Hn Hr. rewrite erase_block in *. fuel n Hn. cbn [pr app parse] in *. rewrite <- app_assoc. cbn [app].
    rewrite I; [reflexivity|len Hn].
  - intros s ls ns s1 n s2 HL H I. exists n. split; [apply L_part with (1 := HL)|]. split; [apply last_last|]. intros m r Hm Hr.
    destruct (plain_head (erase n)) as [a [t [E B]]]; [exact (proj2 (proj1 W_grammar _ _ _ _ H))|].
    destruct m as [|m]; [exfalso; lia|].
    destruct ls as [|b ls].
    + apply L_nil in HL as [-> ->]. cbn [p_labels flat_map app]. cbn [p_labels flat_map app] in Hm.
      specialize (I (Datatypes.S m) r ltac:(lia) Hr) as I0. rewrite E in I0. cbn [app] in I0. rewrite E. cbn [app].
      assert (X : match a with LB => True | _ => False end \/ match a :: t ++ r with LB :: _ => False | _ => True end) by (destruct a; tauto).
      destruct X as [X|X]; [destruct a; try contradiction; apply parse_lb with (names [])  ; exact I0|].
      rewrite (sub_lab m s (a :: t ++ r) X). change (a :: t ++ r) with (p_labels [] ++ a :: t ++ r). rewrite (L_pr _ _ _ _ _ (L_no s) (begins_nolab _ _ B)).
      cbn [bind]. specialize (I m r ltac:(lia) Hr). rewrite E in I. cbn [app] in I. rewrite I. reflexivity.
    + rewrite (sub_lab m s _ (L_head _ _ _ _ (pr (erase n) ++ r) HL ltac:(discriminate))).
      rewrite (L_pr _ _ _ _ (pr (erase n) ++ r) HL) by (rewrite E; apply begins_nolab; exact B). cbn [bind].
      rewrite I; [reflexivity|rewrite app_length in Hm; lia|exact Hr].
  - intros s ls ns s1 HL n r Hn. rewrite (L_erase _ _ _ _ HL) in *. destruct n as [|n]; [lia|]. cbn [block].
    rewrite (L_pr _ _ _ _ (RB :: r) HL eq_refl). reflexivity.
  - intros s ls ns s1 d l b s2 HL H I n r Hn. rewrite map_app, flat_map_app, (L_erase _ _ _ _ HL) in *. destruct n as [|n]; [lia|].
    cbn [block map flat_map erase pr app] in *. rewrite <- !app_assoc. cbn [app]. rewrite <- !app_assoc. cbn [app].
    rewrite (L_pr _ _ _ _ _ HL) by reflexivity. cbn [bind]. rewrite declaration_pr. cbn [bind]. rewrite I; [reflexivity|len Hn].
  - intros s ls ns s1 nd s2 b s3 HL H I H' I' n r Hn. rewrite map_app, flat_map_app, (L_erase _ _ _ _ HL) in *. destruct n as [|n]; [lia|].
    cbn [map flat_map] in *. rewrite <- !app_assoc. rewrite !app_length in Hn.
    destruct (plain_head (erase nd)) as [a [t [E B]]]; [exact (proj2 (proj1 W_grammar _ _ _ _ H))|].
    pose proof (L_pr _ _ _ _ (pr (erase nd) ++ flat_map pr (map erase b) ++ RB :: r) HL) as X. rewrite E in X at 1 3. cbn [app] in X.
    rewrite (block_stmt _ _ _ _ _ _ _ _ (X (begins_nolab _ _ B)) B). change (a :: t ++ flat_map pr (map erase b) ++ RB :: r) with ((a :: t) ++ flat_map pr (map erase b) ++ RB :: r).
    rewrite <- E. rewrite I; [|lia|intros _; apply pr_list_noelse]. cbn [bind].
    assert (1 <= length (pr (erase nd)))%nat by (rewrite E; cbn [length]; lia).
    rewrite I'; [reflexivity|lia].
Qed.
