(** Proofs for JmpModel.v: the tokens. A parse is the same as a derivation of [W], which has no tokens. *)
From Coq Require Import Ascii String ZArith List Bool Lia Arith.
From Verif Require Import JmpSpec JmpModel.
Import ListNotations.
Local Open Scope string_scope.
Local Open Scope Z_scope.
Local Open Scope list_scope.

Lemma bind_ok : forall A B (x : res A) (f : A -> res B) b, bind x f = Ok b -> exists a, x = Ok a /\ f a = Ok b.
Proof. intros A B [a| |] f b H; try discriminate. exists a. split; [reflexivity|exact H]. Qed.
Ltac bi H := let a := fresh "a" in let E := fresh "E" in apply bind_ok in H; destruct H as [a [E H]].
Ltac bi2 H := let E := fresh "E" in apply bind_ok in H; destruct H as [[? ?] [E H]].
Ltac bi3 H := let E := fresh "E" in apply bind_ok in H; destruct H as [[[? ?] ?] [E H]].

(** * Declarations and conditions *)
Definition nocomma (t : list tok) : bool := match t with Comma :: _ => false | _ => true end.
Lemma more_ok : forall n t l r, (length t <= n)%nat -> more t = Ok (l, r) -> t = p_more l ++ r /\ nocomma r = true.
Proof.
  induction n; intros t l r Hn H.
  - destruct t; [|cbn in Hn; lia]. injection H as <- <-. split; reflexivity.
  - destruct t as [|a t]; [injection H as <- <-; split; reflexivity|].
    destruct a; try (injection H as <- <-; split; reflexivity).
    destruct t as [|b t]; [discriminate|]. destruct b; try discriminate.
    change (more (Comma :: Dc d :: t)) with (do (l, r) <- more t; Ok (d :: l, r)) in H. bi2 H.
    injection H as <- <-. apply IHn in E; [|cbn in Hn; lia]. destruct E as [-> E]. split; [reflexivity|exact E].
Qed.
Lemma more_pr : forall l r, nocomma r = true -> more (p_more l ++ r) = Ok (l, r).
Proof.
  induction l as [|d l IH]; intros r H.
  - change (p_more [] ++ r) with r. destruct r as [|a r]; [reflexivity|]. destruct a; try reflexivity; discriminate.
  - change (p_more (d :: l) ++ r) with (Comma :: Dc d :: (p_more l ++ r)).
    change (more (Comma :: Dc d :: (p_more l ++ r))) with (do (l, r) <- more (p_more l ++ r); Ok (d :: l, r)).
    rewrite (IH r H). reflexivity.
Qed.
Lemma declaration_ok : forall t l r, declaration t = Ok (l, r) -> t = p_list l ++ Semi :: r.
Proof.
  intros t l r H. destruct t as [|a t]; [discriminate|]. destruct a; try discriminate; unfold declaration in H.
  - bi2 H. bi H. injection H as <- <-. destruct (more_ok _ _ _ _ (le_n _) E) as [-> _].
    destruct l1 as [|b l1]; [discriminate|]. destruct b; try discriminate. injection E0 as <-. reflexivity.
  - injection H as <- <-. reflexivity.
Qed.
Lemma declaration_pr : forall l r, declaration (p_list l ++ Semi :: r) = Ok (l, r).
Proof.
  intros [|d l] r; [reflexivity|]. change (p_list (d :: l) ++ Semi :: r) with (Dc d :: (p_more l ++ Semi :: r)).
  unfold declaration. rewrite (more_pr l (Semi :: r) eq_refl). reflexivity.
Qed.

Definition stop (semi : bool) : tok := if semi then Semi else RP.
Lemma is_stop_ok : forall semi t, is_stop semi t = true -> t = stop semi :: tl t.
Proof. intros [] [|[] t] H; try discriminate; reflexivity. Qed.
Lemma is_stop_pr : forall semi r, is_stop semi (stop semi :: r) = true.
Proof. intros [] r; reflexivity. Qed.

(** One declaration, and what [clauses] does with it. *)
Lemma clauses_ty : forall n cl d t x, clauses (Datatypes.S n) cl (Ty d :: t) = Ok x ->
  exists f l r, t = Dc f :: p_more l ++ r /\ nocomma r = true /\
  (match r with
   | Semi :: r' => if Nat.eqb (Datatypes.S cl) 1
                   then (do (ds, v, c, m, r') <- clauses n (Datatypes.S cl) r'; Ok ((d, (f, l)) :: ds, v, c, m, r')) = Ok x
                   else x = ([(d, (f, l))], match l with [] => true | _ => false end, Datatypes.S cl, true, r)
   | _ => x = ([(d, (f, l))], match l with [] => true | _ => false end, Datatypes.S cl, true, r)
   end).
Proof.
  intros n cl d t x H. destruct t as [|a t]; [discriminate|]. destruct a; try discriminate. cbn [clauses] in H. bi2 H.
  destruct (more_ok _ _ _ _ (le_n _) E) as [-> Hc]. exists d0, l, l0. split; [reflexivity|]. split; [exact Hc|].
  destruct l0 as [|b l0]; [congruence|]. destruct b; try congruence. destruct (Nat.eqb (Datatypes.S cl) 1); congruence.
Qed.
Lemma clauses_pr : forall n cl d f l r, nocomma r = true ->
  clauses (Datatypes.S n) cl (p_decl (d, (f, l)) ++ r) =
  match r with
  | Semi :: r' => if Nat.eqb (Datatypes.S cl) 1
                  then (do (ds, v, c, m, r') <- clauses n (Datatypes.S cl) r'; Ok ((d, (f, l)) :: ds, v, c, m, r'))
                  else Ok ([(d, (f, l))], match l with [] => true | _ => false end, Datatypes.S cl, true, r)
  | _ => Ok ([(d, (f, l))], match l with [] => true | _ => false end, Datatypes.S cl, true, r)
  end.
Proof.
  intros n cl d f l r H. unfold p_decl. cbn [fst snd app clauses]. rewrite (more_pr l r H). reflexivity.
Qed.
Definition noty (t : list tok) : bool := match t with Ty _ :: _ => false | _ => true end.
Lemma clauses_none : forall n cl t, noty t = true -> clauses n cl t = Ok ([], false, cl, false, t).
Proof. intros [|n] cl t H; [reflexivity|]. destruct t as [|a t]; [reflexivity|]. destruct a; try reflexivity. discriminate. Qed.

(** The rest of a condition. *)
Definition finish (semi : bool) (ds : list decl) (var : bool) (clause : nat) (missing : bool) (t : list tok) : res (cond * list tok) :=
  if (Nat.ltb clause 2) && negb (is_stop semi t) then
    match t with
    | Ex e :: r => if is_stop semi r then Ok ((ds, if missing then Run e else Exp e), tl r) else Err
    | _ => Err
    end
  else if negb var then Err
  else if is_stop semi t then Ok ((ds, Obj), tl t) else Err.
Lemma cond_finish : forall semi cl t, cond_declaration semi cl t =
  (do (ds, var, clause, missing, t) <- clauses 2 cl t; finish semi ds var clause missing t).
Proof. reflexivity. Qed.
Lemma finish_ok : forall semi ds var cl m t c r, finish semi ds var cl m t = Ok (c, r) ->
  ((cl < 2)%nat /\ exists e, t = Ex e :: stop semi :: r /\ c = (ds, if m then Run e else Exp e))
  \/ (var = true /\ t = stop semi :: r /\ c = (ds, Obj)).
Proof.
  intros semi ds var cl m t c r H. unfold finish in H. destruct (Nat.ltb cl 2 && negb (is_stop semi t)) eqn:E1.
  - apply andb_prop in E1 as [E1 _]. apply Nat.ltb_lt in E1. destruct t as [|a t]; [discriminate|]. destruct a; try discriminate.
    destruct (is_stop semi t) eqn:E2; [|discriminate]. injection H as <- <-. left. split; [exact E1|].
    exists e. rewrite <- (is_stop_ok _ _ E2). split; reflexivity.
  - destruct var; [|discriminate]. cbn [negb] in H. destruct (is_stop semi t) eqn:E2; [|discriminate]. injection H as <- <-.
    right. rewrite <- (is_stop_ok _ _ E2). split; [reflexivity|]. split; reflexivity.
Qed.
Lemma finish_exp : forall semi ds var cl (m : bool) e r, (cl < 2)%nat ->
  finish semi ds var cl m (Ex e :: stop semi :: r) = Ok ((ds, if m then Run e else Exp e), r).
Proof.
  intros semi ds var cl m e r H. unfold finish. apply Nat.ltb_lt in H. rewrite H.
  replace (is_stop semi (Ex e :: stop semi :: r)) with false by (destruct semi; reflexivity). cbn [andb negb].
  rewrite is_stop_pr. reflexivity.
Qed.
Lemma finish_obj : forall semi ds cl m r, finish semi ds true cl m (stop semi :: r) = Ok ((ds, Obj), r).
Proof. intros semi ds cl m r. unfold finish. rewrite is_stop_pr. rewrite andb_false_r. reflexivity. Qed.
Lemma stop_comma : forall semi r, nocomma (stop semi :: r) = true.
Proof. intros [] r; reflexivity. Qed.

Lemma decl_parts : forall d f l r, Ty d :: Dc f :: p_more l ++ r = p_decl (d, (f, l)) ++ r.
Proof. reflexivity. Qed.
Ltac noty t := match goal with H : cond_declaration _ _ _ = _ |- _ => rewrite cond_finish, (clauses_none 2 _ t eq_refl) in H end.
Lemma cond0_ok : forall t c r, cond_declaration false 0 t = Ok (c, r) -> choice c = true /\ t = p_cond c ++ RP :: r.
Proof.
  intros t c r H. destruct (noty t) eqn:N.
  - rewrite cond_finish, (clauses_none 2 0 t N) in H. cbn [bind] in H. apply finish_ok in H.
    destruct H as [[_ [e [-> ->]]]|[H _]]; [|discriminate]. split; reflexivity.
  - destruct t as [|a t]; [discriminate|]. destruct a; try discriminate. rewrite cond_finish in H. bi2 H.
    destruct p as [[[ds v] cl] m]. destruct (clauses_ty _ _ _ _ _ E) as [f [l1 [r1 [-> [Hc H1]]]]].
    destruct r1 as [|b r1]; [injection H1 as -> -> -> -> ->; apply finish_ok in H; destruct H as [[_ [e [H _]]]|[_ [H _]]]; discriminate|].
    destruct b; try (injection H1 as -> -> -> -> ->; apply finish_ok in H;
      destruct H as [[_ [e' [H ->]]]|[V [H ->]]]; try discriminate H; injection H as -> -> || injection H as ->;
      (split; [destruct l1; (reflexivity || discriminate)|cbn [p_cond flat_map]; rewrite decl_parts, ?app_nil_r, <- ?app_assoc; reflexivity])).
    rewrite Nat.eqb_refl in H1. bi H1. destruct a as [[[[ds1 v1] c1] m1] r2]. injection H1 as <- -> -> -> ->.
    destruct (noty r1) eqn:N1.
    + rewrite (clauses_none 1 1 r1 N1) in E0. injection E0 as <- <- <- <- <-. apply finish_ok in H.
      destruct H as [[_ [e [-> ->]]]|[V _]]; [|discriminate]. split; [reflexivity|].
      cbn [p_cond flat_map]. rewrite decl_parts, app_nil_r, <- !app_assoc. reflexivity.
    + destruct r1 as [|b r1]; [discriminate|]. destruct b; try discriminate.
      destruct (clauses_ty _ _ _ _ _ E0) as [f2 [l2 [r3 [-> [Hc2 H2]]]]].
      assert (X : (ds1, v, cl, m, l) = ([(d0, (f2, l2))], match l2 with [] => true | _ => false end, 2%nat, true, r3))
        by (destruct r3 as [|b r3]; [exact H2|destruct b; exact H2]).
      injection X as -> -> -> -> ->. apply finish_ok in H. destruct H as [[H _]|[V [-> ->]]]; [lia|].
      split; [destruct l2; (reflexivity || discriminate)|]. cbn [p_cond]. rewrite decl_parts, <- !app_assoc. reflexivity.
Qed.
Lemma cond1_ok : forall semi t c r, cond_declaration semi 1 t = Ok (c, r) -> repeat_ c = true /\ t = p_cond c ++ stop semi :: r.
Proof.
  intros semi t c r H. destruct (noty t) eqn:N.
  - rewrite cond_finish, (clauses_none 2 1 t N) in H. cbn [bind] in H. apply finish_ok in H.
    destruct H as [[_ [e [-> ->]]]|[H _]]; [|discriminate]. split; reflexivity.
  - destruct t as [|a t]; [discriminate|]. destruct a; try discriminate. rewrite cond_finish in H. bi2 H.
    destruct p as [[[ds v] cl] m]. destruct (clauses_ty _ _ _ _ _ E) as [f [l1 [r1 [-> [Hc H1]]]]].
    assert (X : (ds, v, cl, m, l) = ([(d, (f, l1))], match l1 with [] => true | _ => false end, 2%nat, true, r1))
      by (destruct r1 as [|b r3]; [exact H1|destruct b; exact H1]).
    injection X as -> -> -> -> ->. apply finish_ok in H. destruct H as [[H _]|[V [-> ->]]]; [lia|].
    split; [destruct l1; (reflexivity || discriminate)|]. cbn [p_cond flat_map]. rewrite decl_parts, app_nil_r. reflexivity.
Qed.
Lemma cond1_pr : forall semi c r, repeat_ c = true -> cond_declaration semi 1 (p_cond c ++ stop semi :: r) = Ok (c, r).
Proof.
  intros semi [ds v] r H. rewrite cond_finish. destruct ds as [|[d [f l]] ds].
  - destruct v; try discriminate. cbn [p_cond flat_map app]. rewrite clauses_none by reflexivity. cbn [bind].
    apply finish_exp. lia.
  - destruct ds; [|discriminate]. destruct v; try discriminate. destruct l; [|discriminate]. cbn [p_cond flat_map]. rewrite app_nil_r.
    rewrite (clauses_pr 1 1 d f [] _ (stop_comma _ _)). destruct semi; cbn [stop Nat.eqb bind]; apply finish_obj.
Qed.
Lemma cond0_pr : forall c r, choice c = true -> cond_declaration false 0 (p_cond c ++ RP :: r) = Ok (c, r).
Proof.
  intros [ds v] r H. rewrite cond_finish. destruct ds as [|[d [f l]] [|[d2 [f2 l2]] [|? ?]]].
  - destruct v; try discriminate. reflexivity.
  - destruct v.
    + cbn [p_cond flat_map]. rewrite app_nil_r, <- !app_assoc. cbn [app].
      rewrite (clauses_pr 1 0 d f l (Semi :: Ex e :: RP :: r) eq_refl). cbn [Nat.eqb]. rewrite clauses_none by reflexivity. reflexivity.
    + cbn [p_cond flat_map]. rewrite app_nil_r, <- !app_assoc. cbn [app].
      rewrite (clauses_pr 1 0 d f l (Ex e :: RP :: r) eq_refl). reflexivity.
    + destruct l; [|discriminate]. cbn [p_cond flat_map]. rewrite app_nil_r.
      rewrite (clauses_pr 1 0 d f [] (RP :: r) eq_refl). reflexivity.
  - destruct v; try discriminate. destruct l2; [|discriminate]. cbn [p_cond]. rewrite <- !app_assoc.
    rewrite (clauses_pr 1 0 d f l ([Semi] ++ p_decl (d2, (f2, [])) ++ RP :: r) eq_refl). cbn [app Nat.eqb]. rewrite (clauses_pr 0 1 d2 f2 [] (RP :: r) eq_refl). reflexivity.
  - destruct v; discriminate.
Qed.

(** * Labels *)
Fixpoint put (u : nat) (ls : list label) (cs : list ctx) : res (list ctx) :=
  match ls with
  | [] => Ok cs
  | LId _ _ :: ls => put u ls cs
  | LCase k _ _ :: ls => do cs <- add_case k u cs; put u ls cs
  | LDef k :: ls => do cs <- add_default k u cs; put u ls cs
  end.
Definition nolab (t : list tok) : bool :=
  match t with Id _ _ :: Colon :: _ | KDefault _ :: _ | KCase _ :: _ => false | _ => true end.
Lemma labels_ok : forall n u cs t ls cs' r, (length t <= n)%nat -> label_loop u cs t = Ok (ls, cs', r) ->
  t = p_labels ls ++ r /\ put u ls cs = Ok cs' /\ nolab r = true.
Proof.
  induction n; intros u cs t ls cs' r Hn H.
  - destruct t; [|cbn in Hn; lia]. injection H as <- <- <-. repeat split.
  - destruct t as [|a t]; [injection H as <- <- <-; repeat split|].
    destruct a; try (injection H as <- <- <-; repeat split; fail).
    + destruct t as [|b t]; [discriminate|]. destruct b; try discriminate. destruct t as [|b t]; [discriminate|]. destruct b; try discriminate.
      * change ((do cs <- add_case k u cs; do (ls, cs, r) <- label_loop u cs t; Ok (LCase k e None :: ls, cs, r)) = Ok (ls, cs', r)) in H.
        bi H. bi3 H. injection H as <- <- <-. apply IHn in E0; [|cbn in Hn; lia]. destruct E0 as [-> [E0 E1]].
        split; [reflexivity|]. split; [|exact E1]. cbn [put]. rewrite E. exact E0.
      * destruct t as [|b t]; [discriminate|]. destruct b; try discriminate. destruct t as [|b t]; [discriminate|]. destruct b; try discriminate.
        change ((do cs <- add_case k u cs; do (ls, cs, r) <- label_loop u cs t; Ok (LCase k e (Some e0) :: ls, cs, r)) = Ok (ls, cs', r)) in H.
        bi H. bi3 H. injection H as <- <- <-. apply IHn in E0; [|cbn in Hn; lia]. destruct E0 as [-> [E0 E1]].
        split; [reflexivity|]. split; [|exact E1]. cbn [put]. rewrite E. exact E0.
    + change ((do cs <- add_default k u cs;
              match t with Colon :: r => do (ls, cs, r) <- label_loop u cs r; Ok (LDef k :: ls, cs, r) | _ => Err end) = Ok (ls, cs', r)) in H.
      bi H. destruct t as [|b t]; [discriminate|]. destruct b; try discriminate.
      bi3 H. injection H as <- <- <-. apply IHn in E0; [|cbn in Hn; lia]. destruct E0 as [-> [E0 E1]].
      split; [reflexivity|]. split; [|exact E1]. cbn [put]. rewrite E. exact E0.
    + destruct t as [|b t]; [injection H as <- <- <-; repeat split|].
      destruct b; try (injection H as <- <- <-; repeat split; fail).
      change ((do (ls, cs, r) <- label_loop u cs t; Ok (LId k x :: ls, cs, r)) = Ok (ls, cs', r)) in H.
      bi3 H. injection H as <- <- <-. apply IHn in E; [|cbn in Hn; lia]. destruct E as [-> [E0 E1]].
      split; [reflexivity|]. split; [|exact E1]. exact E0.
Qed.
Lemma labels_pr : forall u ls cs cs' r, put u ls cs = Ok cs' -> nolab r = true -> label_loop u cs (p_labels ls ++ r) = Ok (ls, cs', r).
Proof.
  induction ls as [|[k x|k lo [hi|]|k] ls IH]; intros cs cs' r H N.
  - injection H as <-. change (p_labels [] ++ r) with r. destruct r as [|a r]; [reflexivity|]. destruct a; try reflexivity; try discriminate.
    destruct r as [|b r]; [reflexivity|]. destruct b; try reflexivity; discriminate.
  - change ((do (ls, cs, r) <- label_loop u cs (p_labels ls ++ r); Ok (LId k x :: ls, cs, r)) = Ok (LId k x :: ls, cs', r)).
    rewrite (IH _ _ _ H N). reflexivity.
  - cbn [put] in H. bi H.
    change ((do cs <- add_case k u cs; do (ls, cs, r) <- label_loop u cs (p_labels ls ++ r); Ok (LCase k lo (Some hi) :: ls, cs, r))
            = Ok (LCase k lo (Some hi) :: ls, cs', r)).
    rewrite E. cbn [bind]. rewrite (IH _ _ _ H N). reflexivity.
  - cbn [put] in H. bi H.
    change ((do cs <- add_case k u cs; do (ls, cs, r) <- label_loop u cs (p_labels ls ++ r); Ok (LCase k lo None :: ls, cs, r))
            = Ok (LCase k lo None :: ls, cs', r)).
    rewrite E. cbn [bind]. rewrite (IH _ _ _ H N). reflexivity.
  - cbn [put] in H. bi H.
    change ((do cs <- add_default k u cs; do (ls, cs, r) <- label_loop u cs (p_labels ls ++ r); Ok (LDef k :: ls, cs, r))
            = Ok (LDef k :: ls, cs', r)).
    rewrite E. cbn [bind]. rewrite (IH _ _ _ H N). reflexivity.
Qed.

(** * Derivations *)
Inductive L : st -> list label -> list node -> st -> Prop :=
| L_no : forall s, L s [] [] s
| L_some : forall s a l cs, put (ctr s) (a :: l) (ctxs s) = Ok cs ->
    L s (a :: l) [NLabel (ctr s) a l] (St (Datatypes.S (ctr s)) cs ((a :: l, ctr s) :: labs s)).
Lemma L_ok : forall s t ls ns s1 r, label_stmt s t = Ok (ls, ns, s1, r) -> L s ls ns s1 /\ t = p_labels ls ++ r /\ nolab r = true.
Proof.
  intros s t ls ns s1 r H. unfold label_stmt in H. bi3 H. destruct (labels_ok _ _ _ _ _ _ _ (le_n _) E) as [-> [P N]].
  destruct l as [|a l]; injection H as <- <- <- <-; (split; [|split; [reflexivity|exact N]]).
  - apply L_no.
  - apply L_some. exact P.
Qed.
Lemma L_pr : forall s ls ns s1 r, L s ls ns s1 -> nolab r = true -> label_stmt s (p_labels ls ++ r) = Ok (ls, ns, s1, r).
Proof.
  intros s ls ns s1 r H N. unfold label_stmt. destruct H.
  - rewrite (labels_pr (ctr s) [] (ctxs s) (ctxs s) r eq_refl N). reflexivity.
  - rewrite (labels_pr _ _ _ _ r H N). reflexivity.
Qed.

Inductive W : list string -> st -> node -> st -> Prop :=
| W_exp : forall xs s e, W xs s (NExp e) s
| W_ret : forall xs s k e, W xs s (NRet k e) s
| W_goto : forall xs s k j x, W xs s (NGoto k j x None) s
| W_break : forall xs s k x c, resolve false x (ctxs s) = Ok c -> W xs s (NBreak k x (c_brk c)) s
| W_cont : forall xs s k x c, resolve true x (ctxs s) = Ok c -> W xs s (NCont k x (c_cont c)) s
| W_if : forall xs s k c ls b s1, choice c = true -> Ws s ls b s1 -> W xs s (NIf k c b None) s1
| W_else : forall xs s k c ls b s1 ms e s2, choice c = true -> Ws s ls b s1 -> Ws s1 ms e s2 ->
    ends_if (erase (last b (NExp None))) = false -> W xs s (NIf k c b (Some e)) s2
| W_switch : forall xs s k c ls b s1, choice c = true -> Ws (push_switch xs s) ls b s1 ->
    W xs s (NSwitch k c (ctr s) (top_cases s1) (top_default s1) b) (pop s1)
| W_while : forall xs s k c ls b s1, repeat_ c = true -> Ws (push_loop xs s) ls b s1 ->
    W xs s (NWhile k c (ctr s) (ctr s + 1)%nat b) (pop s1)
| W_do : forall xs s k ls b j e s1, Ws (push_loop xs s) ls b s1 -> W xs s (NDo k b j e (ctr s) (ctr s + 1)%nat) (pop s1)
| W_for : forall xs s k f c i ls b s1, match c with Some c => repeat_ c | None => true end = true -> Ws (push_loop xs s) ls b s1 ->
    W xs s (NFor k f c i (ctr s) (ctr s + 1)%nat b) (pop s1)
| W_block : forall xs s l s1, Wb s l s1 -> W xs s (NBlock l) s1
with Ws : st -> list label -> list node -> st -> Prop :=
| Ws_ : forall s ls ns s1 n s2, L s ls ns s1 -> W (names ls) s1 n s2 -> Ws s ls (ns ++ [n]) s2
with Wb : st -> list node -> st -> Prop :=
| Wb_end : forall s ls ns s1, L s ls ns s1 -> Wb s ns s1
| Wb_decl : forall s ls ns s1 d l b s2, L s ls ns s1 -> Wb s1 b s2 -> Wb s (ns ++ NDecl d l :: b) s2
| Wb_stmt : forall s ls ns s1 n s2 b s3, L s ls ns s1 -> W (names ls) s1 n s2 -> Wb s2 b s3 -> Wb s (ns ++ n :: b) s3.
Scheme W_mut := Induction for W Sort Prop with Ws_mut := Induction for Ws Sort Prop with Wb_mut := Induction for Wb Sort Prop.
Combined Scheme W_all from W_mut, Ws_mut, Wb_mut.

Definition noelse (t : list tok) : bool := match t with KElse :: _ => false | _ => true end.
Lemma L_erase : forall s ls ns s1, L s ls ns s1 -> flat_map pr (map erase ns) = p_labels ls.
Proof. intros s ls ns s1 [|]; [reflexivity|]. cbn [map erase flat_map pr]. rewrite app_nil_r. reflexivity. Qed.
Definition part (b : list node) : list label * stmt :=
  match b with
  | [NLabel _ a l; n] => (a :: l, erase n)
  | [n] => ([], erase n)
  | _ => ([], SExp None)
  end.
Lemma L_part : forall s ls ns s1 n, L s ls ns s1 -> part (ns ++ [n]) = (ls, erase n).
Proof. intros s ls ns s1 n [|]; [destruct n; reflexivity|reflexivity]. Qed.
Lemma erase_if : forall k c b, erase (NIf k c b None) = SIf k c (fst (part b)) (snd (part b)). Proof. reflexivity. Qed.
Lemma erase_else : forall k c b e, erase (NIf k c b (Some e)) = SElse k c (fst (part b)) (snd (part b)) (fst (part e)) (snd (part e)).
Proof. reflexivity. Qed.
Lemma erase_switch : forall k c brk cs df b, erase (NSwitch k c brk cs df b) = SSwitch k c (fst (part b)) (snd (part b)). Proof. reflexivity. Qed.
Lemma erase_while : forall k c brk cont b, erase (NWhile k c brk cont b) = SWhile k c (fst (part b)) (snd (part b)). Proof. reflexivity. Qed.
Lemma erase_do : forall k b j e brk cont, erase (NDo k b j e brk cont) = SDo k (fst (part b)) (snd (part b)) j e. Proof. reflexivity. Qed.
Lemma erase_for : forall k f c i brk cont b, erase (NFor k f c i brk cont b) = SFor k f c i (fst (part b)) (snd (part b)). Proof. reflexivity. Qed.
Lemma erase_block : forall l, erase (NBlock l) = SBlock (map erase l). Proof. reflexivity. Qed.
Ltac er := rewrite ?erase_if, ?erase_else, ?erase_switch, ?erase_while, ?erase_do, ?erase_for, ?erase_block.
Ltac er_in H := rewrite ?erase_if, ?erase_else, ?erase_switch, ?erase_while, ?erase_do, ?erase_for, ?erase_block in H.

(** * Reading *)
Definition R1 (xs : list string) (s : st) (t : list tok) (n : node) (s' : st) (r : list tok) : Prop :=
  W xs s n s' /\ t = pr (erase n) ++ r /\ plain (erase n) = true /\ (ends_if (erase n) = true -> noelse r = true).
Definition R2 (s : st) (t : list tok) (b : list node) (s' : st) (r : list tok) : Prop :=
  exists ls n, Ws s ls b s' /\ part b = (ls, erase n) /\ last b (NExp None) = n
    /\ t = p_labels ls ++ pr (erase n) ++ r /\ plain (erase n) = true /\ (ends_if (erase n) = true -> noelse r = true).
Definition R3 (s : st) (t : list tok) (b : list node) (s' : st) (r : list tok) : Prop :=
  Wb s b s' /\ t = flat_map pr (map erase b) ++ RB :: r.
Lemma opt_exp_ok : forall t e r, opt_exp t = (e, r) -> t = p_opt e ++ r.
Proof. intros t e r H. destruct t as [|[] t]; injection H as <- <-; reflexivity. Qed.
Lemma skip_semi_ok : forall t r, skip_semi t = Ok r -> t = Semi :: r.
Proof. intros [|[] t] r H; try discriminate. injection H as ->. reflexivity. Qed.
Lemma jump_name_ok : forall t x r, jump_name t = Ok (x, r) -> t = p_name x ++ Semi :: r.
Proof.
  intros [|[] t] x0 r H; try discriminate; [|injection H as <- <-; reflexivity].
  destruct t as [|[] t]; try discriminate. injection H as <- <-. reflexivity.
Qed.
Ltac lst H := let b := fresh "b" in destruct H as [|b H]; [discriminate|]; destruct b; try discriminate.
Lemma read_ok : forall n,
  (forall xs s t nd s' r, parse n xs s t = Ok (nd, s', r) -> R1 xs s t nd s' r) /\
  (forall s t b s' r, sub n s t = Ok (b, s', r) -> R2 s t b s' r) /\
  (forall s t b s' r, block n s t = Ok (b, s', r) -> R3 s t b s' r).
Proof.
  induction n as [|n [I1 [I2 I3]]]; [repeat split; intros; discriminate|]. split; [|split].
  - intros xs s t nd s' r H. cbn [parse] in H. destruct t as [|a t]; [discriminate|]. destruct a; try discriminate.
    + (* if *) lst t. bi2 H. bi3 H. destruct (cond0_ok _ _ _ E) as [C ->]. destruct (I2 _ _ _ _ _ E0) as [ls [nd1 [H1 [H2 [H3 [-> [H5 H6]]]]]]].
      assert (CASE : noelse l1 = true -> Ok (NIf k c l0 None, s0, l1) = Ok (nd, s', r) ->
                     R1 xs s (KIf k :: LP :: p_cond c ++ RP :: p_labels ls ++ pr (erase nd1) ++ l1) nd s' r).
      { intros Ne X. injection X as <- <- <-. split; [apply W_if with ls; [exact C|exact H1]|]. er. rewrite H2.
        split; [|split; [reflexivity|intros _; exact Ne]]. cbn [fst snd pr app]. rewrite <- !app_assoc. cbn [app]. rewrite <- !app_assoc. reflexivity. }
      destruct l1 as [|b l1]; [exact (CASE eq_refl H)|]. destruct b; try exact (CASE eq_refl H).
      bi3 H. injection H as <- <- <-. destruct (I2 _ _ _ _ _ E1) as [ms [nd2 [G1 [G2 [G3 [-> [G5 G6]]]]]]].
      assert (Ne : ends_if (erase nd1) = false) by (destruct (ends_if (erase nd1)); [specialize (H6 eq_refl); discriminate|reflexivity]).
      split; [apply W_else with ls s0 ms; [exact C|exact H1|exact G1|rewrite H3; exact Ne]|]. er. rewrite H2, G2.
      split; [|split; [reflexivity|exact G6]]. cbn [fst snd pr app]. rewrite <- !app_assoc. cbn [app]. rewrite <- !app_assoc. cbn [app]. rewrite <- !app_assoc. reflexivity.
    + (* switch *) lst t. bi2 H. bi3 H. injection H as <- <- <-. destruct (cond0_ok _ _ _ E) as [C ->].
      destruct (I2 _ _ _ _ _ E0) as [ls [nd1 [H1 [H2 [H3 [-> [H5 H6]]]]]]].
      split; [apply W_switch with ls; [exact C|exact H1]|]. er. rewrite H2. split; [|split; [reflexivity|exact H6]].
      cbn [fst snd pr app]. rewrite <- !app_assoc. cbn [app]. rewrite <- !app_assoc. reflexivity.
    + (* while *) lst t. bi2 H. bi3 H. injection H as <- <- <-. destruct (cond1_ok _ _ _ _ E) as [C ->].
      destruct (I2 _ _ _ _ _ E0) as [ls [nd1 [H1 [H2 [H3 [-> [H5 H6]]]]]]].
      split; [apply W_while with ls; [exact C|exact H1]|]. er. rewrite H2. split; [|split; [reflexivity|exact H6]].
      cbn [fst snd pr app stop]. rewrite <- !app_assoc. cbn [app]. rewrite <- !app_assoc. reflexivity.
    + (* do *) bi3 H. destruct (I2 _ _ _ _ _ E) as [ls [nd1 [H1 [H2 [H3 [-> [H5 H6]]]]]]]. lst l0. lst l0. lst l0. lst l0. lst l0.
      injection H as <- <- <-. split; [apply W_do with ls; exact H1|]. er. rewrite H2. split; [|split; [reflexivity|intros X; discriminate X]].
      cbn [fst snd pr app]. rewrite <- !app_assoc. reflexivity.
    + (* for *) lst t. bi2 H. bi2 H. destruct (opt_exp l0) as [i l1] eqn:E1. apply opt_exp_ok in E1. subst l0. lst l1. bi3 H. injection H as <- <- <-.
      destruct (I2 _ _ _ _ _ E1) as [ls [nd1 [H1 [H2 [H3 [-> [H5 H6]]]]]]].
      assert (T : t = p_start s0 ++ l).
      { assert (CASE : (let '(e, r) := opt_exp t in do r <- skip_semi r; Ok (FExp e, r)) = Ok (s0, l) -> t = p_start s0 ++ l).
        { intros X. destruct (opt_exp t) as [e t1] eqn:Eo. apply opt_exp_ok in Eo. bi X. injection X as <- <-. apply skip_semi_ok in E2.
          subst t t1. cbn [p_start]. rewrite <- app_assoc. reflexivity. }
        destruct t as [|b t]; [exact (CASE E)|]. destruct b; try exact (CASE E).
        unfold for_init in E. bi2 E. injection E as <- <-. apply declaration_ok in E2. subst t. cbn [p_start app]. rewrite <- app_assoc. reflexivity. }
      assert (U : match o with Some c => repeat_ c | None => true end = true /\
                  l = match o with Some c => p_cond c | None => [] end ++ Semi :: p_opt i ++ RP :: p_labels ls ++ pr (erase nd1) ++ l2).
      { assert (CASE : (do (c, r) <- cond_declaration true 1 l; Ok (Some c, r)) = Ok (o, p_opt i ++ RP :: p_labels ls ++ pr (erase nd1) ++ l2) ->
          match o with Some c => repeat_ c | None => true end = true /\
          l = match o with Some c => p_cond c | None => [] end ++ Semi :: p_opt i ++ RP :: p_labels ls ++ pr (erase nd1) ++ l2).
        { intros X. bi2 X. injection X as <- ->. destruct (cond1_ok _ _ _ _ E2) as [C ->]. split; [exact C|reflexivity]. }
        destruct l as [|b l]; [exact (CASE E0)|]. destruct b; try exact (CASE E0).
        injection E0 as <- ->. split; reflexivity. }
      destruct U as [U ->]. subst t. split; [apply W_for with ls; [exact U|exact H1]|]. er. rewrite H2. split; [|split; [reflexivity|exact H6]].
      cbn [fst snd pr app]. rewrite <- !app_assoc. cbn [app]. rewrite <- !app_assoc. cbn [app]. rewrite <- !app_assoc. reflexivity.
    + (* goto *) lst t. lst t. injection H as <- <- <-. split; [apply W_goto|]. split; [reflexivity|]. split; [reflexivity|]. intros X; discriminate X.
    + bi2 H. bi H. injection H as <- <- <-. apply jump_name_ok in E. subst t. split; [apply W_break; exact E0|].
      split; [cbn [erase pr app]; rewrite <- app_assoc; reflexivity|]. split; [reflexivity|]. intros X; discriminate X.
    + bi2 H. bi H. injection H as <- <- <-. apply jump_name_ok in E. subst t. split; [apply W_cont; exact E0|].
      split; [cbn [erase pr app]; rewrite <- app_assoc; reflexivity|]. split; [reflexivity|]. intros X; discriminate X.
    + destruct (opt_exp t) as [e1 t1] eqn:E1. apply opt_exp_ok in E1. bi H. injection H as <- <- <-. apply skip_semi_ok in E. subst t t1.
      split; [apply W_ret|]. split; [cbn [erase pr app]; rewrite <- app_assoc; reflexivity|]. split; [reflexivity|]. intros X; discriminate X.
    + (* expression *) destruct t as [|a t]; [discriminate|]. destruct a; try discriminate. injection H as <- <- <-. split; [apply W_exp|]. split; [reflexivity|]. split; [reflexivity|]. intros X; discriminate X.
    + (* block *) bi3 H. injection H as <- <- <-. destruct (I3 _ _ _ _ _ E) as [H1 ->]. split; [apply W_block; exact H1|]. er.
      split; [cbn [pr app]; rewrite <- app_assoc; reflexivity|]. split; [reflexivity|]. intros X; discriminate X.
    + injection H as <- <- <-. split; [apply W_exp|]. split; [reflexivity|]. split; [reflexivity|]. intros X; discriminate X.
  - intros s t b s' r H. cbn [sub] in H.
    assert (CASE : (do (ls, ns, s, t) <- label_stmt s t; do (b, s, t) <- parse n (names ls) s t; Ok (ns ++ [b], s, t)) = Ok (b, s', r) -> R2 s t b s' r).
    { clear H. intros H. bi H. destruct a as [[[ls ns] s1] t1]. bi3 H. injection H as <- <- <-. destruct (L_ok _ _ _ _ _ _ E) as [HL [-> N]].
      destruct (I1 _ _ _ _ _ _ E0) as [H1 [-> [H3 H4]]]. exists ls, n0. split; [apply Ws_ with s1; [exact HL|exact H1]|].
      split; [apply L_part with (1 := HL)|]. split; [apply last_last|]. split; [reflexivity|]. split; [exact H3|exact H4]. }
    destruct t as [|a t]; [exact (CASE H)|]. destruct a; try exact (CASE H).
    bi3 H. injection H as <- <- <-. destruct (I3 _ _ _ _ _ E) as [H1 ->]. exists [], (NBlock l).
    split; [apply Ws_ with (ns := []) (s1 := s); [apply L_no|apply W_block; exact H1]|]. split; [reflexivity|]. split; [reflexivity|]. er.
    split; [cbn [p_labels flat_map pr app]; rewrite <- app_assoc; reflexivity|]. split; [reflexivity|]. intros X; discriminate X.
  - intros s t b s' r H. cbn [block] in H. bi H. destruct a as [[[ls ns] s1] t1]. destruct (L_ok _ _ _ _ _ _ E) as [HL [-> N]].
    assert (CASE : (do (a, s, t) <- parse n (names ls) s1 t1; do (b, s, t) <- block n s t; Ok (ns ++ a :: b, s, t)) = Ok (b, s', r) ->
                   R3 s (p_labels ls ++ t1) b s' r).
    { clear H. intros H. bi3 H. bi3 H. injection H as <- <- <-. destruct (I1 _ _ _ _ _ _ E0) as [H1 [-> [H3 H4]]].
      destruct (I3 _ _ _ _ _ E1) as [G1 ->]. split; [apply Wb_stmt with ls s1 s0; [exact HL|exact H1|exact G1]|].
      rewrite map_app, flat_map_app, (L_erase _ _ _ _ HL). cbn [map flat_map]. rewrite <- !app_assoc. reflexivity. }
    destruct t1 as [|a t1]; [exact (CASE H)|]. destruct a; try exact (CASE H).
    + bi2 H. bi3 H. injection H as <- <- <-. apply declaration_ok in E0. subst t1. destruct (I3 _ _ _ _ _ E1) as [G1 ->].
      split; [apply Wb_decl with ls s1; [exact HL|exact G1]|].
      rewrite map_app, flat_map_app, (L_erase _ _ _ _ HL). cbn [map flat_map erase pr app]. rewrite <- !app_assoc. cbn [app]. rewrite <- app_assoc. reflexivity.
    + injection H as <- <- <-. split; [apply Wb_end with ls; exact HL|]. rewrite (L_erase _ _ _ _ HL). reflexivity.
Qed.
