(** Proofs of C60. *)
From Coq Require Import Ascii String ZArith List Bool Lia.
From Verif Require Import LinkSpec LinkModel.
Import ListNotations.
Local Open Scope string_scope.
Local Open Scope Z_scope.
Local Open Scope list_scope.

(** * Names *)
Definition rel (gs : list obj) (x : string) (v : option vsc) (e : option ent) : Prop :=
  match v, e with
  | None, None => True
  | Some (VGlobal i), Some (ELink _ _) => exists o, nth_error gs i = Some o /\ o_name o = x
  | Some (VLocal k), Some (ELocal j) => k = j
  | Some VNone, Some EOther => True
  | _, _ => False
  end.
Fixpoint R (gs : list obj) (sc : scopes) (e : env) : Prop :=
  match sc, e with
  | [], [] => True
  | f :: sc', g :: e' => (forall x, rel gs x (find_var (f :: sc') x) (visible (g :: e') x)) /\ R gs sc' e'
  | _, _ => False
  end.
Definition ext (gs gs' : list obj) : Prop :=
  forall i o, nth_error gs i = Some o -> exists o', nth_error gs' i = Some o' /\ o_name o' = o_name o.
Lemma rel_ext : forall gs gs' x v e, ext gs gs' -> rel gs x v e -> rel gs' x v e.
Proof.
  intros gs gs' x [[i|k|]|] [[l t|j|]|] E H; cbn [rel] in *; auto. destruct H as (o & N & X).
  destruct (E _ _ N) as (o' & N' & X'). exists o'. split; [exact N' | congruence].
Qed.
Lemma R_ext : forall gs gs' sc e, ext gs gs' -> R gs sc e -> R gs' sc e.
Proof.
  induction sc as [|f sc IH]; intros [|g e] E H; cbn [R] in *; auto. destruct H as [H H']. split; [|apply IH; auto].
  intro x. eapply rel_ext; [exact E | apply H].
Qed.
Lemma ext_refl : forall gs, ext gs gs. Proof. intros gs i o H. eauto. Qed.
Lemma ext_trans : forall a b c, ext a b -> ext b c -> ext a c.
Proof. intros a b c H K i o N. destruct (H _ _ N) as (o1 & N1 & X1). destruct (K _ _ N1) as (o2 & N2 & X2). exists o2. split; [exact N2 | congruence]. Qed.
Lemma nth_app_l : forall (A : Type) (l m : list A) i a, nth_error l i = Some a -> nth_error (l ++ m) i = Some a.
Proof. induction l as [|x l IH]; intros m [|i] a H; cbn in *; try discriminate; auto. Qed.
Lemma nth_app_end : forall (A : Type) (l : list A) a, nth_error (l ++ [a]) (length l) = Some a.
Proof. induction l; intros; cbn; auto. Qed.
Lemma nth_app_inv : forall (A : Type) (l : list A) b i a, nth_error (l ++ [b]) i = Some a ->
  nth_error l i = Some a \/ (i = length l /\ a = b).
Proof.
  induction l as [|x l IH]; intros b i a H.
  - destruct i as [|i]; cbn in H; [injection H as <-; auto | destruct i; discriminate].
  - destruct i as [|i]; cbn in *; [auto|]. destruct (IH _ _ _ H) as [K | [-> K]]; auto.
Qed.
Lemma ext_app : forall gs l, ext gs (gs ++ l).
Proof. intros gs l i o N. exists o. split; [apply nth_app_l; exact N | reflexivity]. Qed.
Lemma update_nth : forall (A : Type) (f : A -> A) l i j, nth_error (update l i f) j =
  if Nat.eqb i j then option_map f (nth_error l j) else nth_error l j.
Proof.
  induction l as [|a l IH]; intros i j; cbn [update].
  - destruct i, j; cbn; try reflexivity. destruct (Nat.eqb i j); reflexivity.
  - destruct i as [|i], j as [|j]; cbn; try reflexivity. apply IH.
Qed.
Lemma update_length : forall (A : Type) (f : A -> A) l i, length (update l i f) = length l.
Proof. induction l; intros [|i]; cbn; auto. Qed.
Lemma ext_change : forall gs i f, (forall o, o_name (f o) = o_name o) -> ext gs (update gs i f).
Proof.
  intros gs i f H j o N. rewrite update_nth. destruct (Nat.eqb i j); rewrite N; cbn [option_map]; eauto.
Qed.
Lemma push_find : forall x v f sc y, find_var (((x, v) :: f) :: sc) y = if String.eqb x y then Some v else find_var (f :: sc) y.
Proof. intros. cbn [find_var assoc]. destruct (String.eqb x y); reflexivity. Qed.
Lemma bind_visible : forall x v f sc y, visible (((x, v) :: f) :: sc) y = if String.eqb x y then Some v else visible (f :: sc) y.
Proof. intros. cbn [visible assoc]. destruct (String.eqb x y); reflexivity. Qed.
Lemma R_push : forall gs sc e x v a, sc <> [] -> R gs sc e -> rel gs x (Some v) (Some a) -> R gs (push_scope x v sc) (bind_name x a e).
Proof.
  intros gs [|f sc] [|g e] x v a N H K; cbn [R] in H; try contradiction.
  destruct H as [H H']. cbn [push_scope bind_name R]. split; [|exact H']. intro y. rewrite push_find, bind_visible.
  destruct (String.eqb_spec x y); [subst; exact K | apply H].
Qed.
(** The name is bound in C only, but it is found already. *)
Lemma R_same : forall gs sc e x a, R gs sc e -> rel gs x (find_var sc x) (Some a) -> R gs sc (bind_name x a e).
Proof.
  intros gs [|f sc] [|g e] x a H K; cbn [R] in H; try contradiction.
  destruct H as [H H']. cbn [bind_name R]. split; [|exact H']. intro y. rewrite bind_visible.
  destruct (String.eqb_spec x y); [subst; exact K | apply H].
Qed.
Lemma R_enter : forall gs sc e, R gs sc e -> R gs ([] :: sc) ([] :: e).
Proof.
  intros gs sc e H. cbn [R]. split; [|exact H]. intro x. cbn [find_var visible assoc].
  destruct sc as [|f sc], e as [|g e]; cbn [R] in H; try contradiction; [exact Logic.I | apply H].
Qed.
Lemma R_at : forall gs sc e x, R gs sc e -> rel gs x (find_var sc x) (visible e x).
Proof. intros gs [|f sc] [|g e] x H; cbn [R] in H; try contradiction; [exact Logic.I | apply H]. Qed.

(** * Uses *)
Lemma name_ok : forall s e k x, R (globals s) (scope s) e -> visible e x <> None ->
  exists r, name_ref x s = Ok r /\ agree (k, r) (k, x, visible e x).
Proof.
  intros s e k x H N. pose proof (R_at _ _ _ x H) as K. unfold name_ref, rel in *.
  destruct (find_var (scope s) x) as [[i|j|]|]; destruct (visible e x) as [[l t|q|]|]; try contradiction; try congruence.
  - destruct K as (o & NE & X). rewrite NE. eexists. split; [reflexivity|]. split; [reflexivity|]. cbn. exists (o_ty o). congruence.
  - subst. eexists. split; [reflexivity|]. split; reflexivity.
  - eexists. split; [reflexivity|]. split; reflexivity.
Qed.

(** * Blocks *)
(** What a block leaves alone: the globals there were, the scopes outside; new globals are not definitions. *)
Record frame (s s' : state) : Prop := {
  fr_old : forall i o, nth_error (globals s) i = Some o -> nth_error (globals s') i = Some o;
  fr_new : forall i o, nth_error (globals s') i = Some o -> nth_error (globals s) i = Some o \/ o_def o = false;
  fr_tl : tl (scope s') = tl (scope s);
  fr_ne : scope s' <> [];
  fr_recs : recs s' = recs s }.
Lemma frame_ext : forall s s', frame s s' -> ext (globals s) (globals s').
Proof. intros s s' F i o N. exists o. split; [apply (fr_old _ _ F), N | reflexivity]. Qed.
Lemma frame_refl : forall s, scope s <> [] -> frame s s. Proof. intros s N. constructor; auto. Qed.
Lemma frame_trans : forall a b c, frame a b -> frame b c -> frame a c.
Proof.
  intros a b c F G. constructor.
  - intros i o N. apply (fr_old _ _ G), (fr_old _ _ F), N.
  - intros i o N. destruct (fr_new _ _ G _ _ N) as [K | K]; [apply (fr_new _ _ F _ _ K) | auto].
  - rewrite (fr_tl _ _ G). apply (fr_tl _ _ F).
  - apply (fr_ne _ _ G).
  - rewrite (fr_recs _ _ G). apply (fr_recs _ _ F).
Qed.
Lemma frame_gvar : forall x t s, scope s <> [] -> frame s (new_gvar x t s).
Proof.
  intros x t s N. constructor; cbn [new_gvar globals scope recs].
  - intros i o H. apply nth_app_l, H.
  - intros i o H. apply nth_app_inv in H. destruct H as [H | [_ ->]]; auto.
  - destruct (scope s); reflexivity.
  - destruct (scope s); [congruence | discriminate].
  - reflexivity.
Qed.
Lemma frame_change : forall s s' i f, frame s s' -> i = length (globals s) -> (forall o, o_def o = false -> o_def (f o) = false) -> frame s (change i f s').
Proof.
  intros s s' i f F E D. constructor; cbn [change globals scope recs]; try apply F.
  - intros j o H. rewrite update_nth. destruct (Nat.eqb_spec i j).
    + subst. assert (length (globals s) < length (globals s))%nat; [|lia]. apply nth_error_Some. congruence.
    + apply (fr_old _ _ F), H.
  - intros j o H. rewrite update_nth in H. destruct (Nat.eqb_spec i j).
    + destruct (nth_error (globals s') j) as [o'|] eqn:N; cbn [option_map] in H; [|discriminate]. injection H as <-.
      destruct (fr_new _ _ F _ _ N) as [K | K]; [|right; auto].
      subst. assert (length (globals s) < length (globals s))%nat; [|lia]. apply nth_error_Some. congruence.
    + apply (fr_new _ _ F _ _ H).
Qed.
(** The condition [h_block] on the facts of a block, and its uses. *)
Definition okb (f : fact) : Prop :=
  match f_prev f with Some (ELocal _) => False | Some EOther => is_obj f = true | _ => True end.
Definition oku (u : use) : Prop := snd u <> None.
Section BlockProofs.
Variable done : ty -> bool.
Definition okblock (P : state -> res (state * list (Z * ref))) (Q : env -> env * list fact * list use) : Prop :=
  forall s e e' f u, R (globals s) (scope s) e -> scope s <> [] -> tl (scope s) <> [] -> Q e = (e', f, u) -> Forall okb f -> Forall oku u ->
  exists s' r, P s = Ok (s', r) /\ R (globals s') (scope s') e' /\ frame s s' /\ Forall2 agree r u.
Lemma extern_ok : forall x tls t, okblock (block_item (BExtern x tls t)) (one done (BExtern x tls t)).
Proof.
  intros x tls t s e e' f u H N T Q B U. cbn [one] in Q. injection Q as <- <- <-.
  apply Forall_inv in B. unfold okb in B. cbn [f_prev] in B. cbn [block_item]. unfold declare. cbn [negb orb].
  pose proof (R_at _ _ _ x H) as K.
  assert (NEW : let s' := new_gvar x (Some t) s in
     R (globals s') (scope s') (bind_name x (ELink (extern_link e x) (Some (seen_type e x t))) e)).
  { cbn [new_gvar globals scope]. apply R_push; [exact N | eapply R_ext; [apply ext_app | exact H] |].
    cbn [rel]. eexists. split; [apply nth_app_end | reflexivity]. }
  unfold rel in K. destruct (find_var (scope s) x) as [[i|k|]|] eqn:FV; destruct (visible e x) as [[l t'|j|]|] eqn:V; try contradiction.
  - destruct K as (o & NE & X). rewrite NE. cbn [bind]. eexists _, _. split; [reflexivity|]. split; [|split; [apply frame_refl, N | constructor]].
    apply R_same; [exact H|]. rewrite FV. cbn [rel]. eauto.
  - cbn [bind]. eexists _, _. split; [reflexivity|]. split; [|split; [|constructor]].
    + cbn [change globals scope]. eapply R_ext; [apply ext_change; reflexivity | exact NEW].
    + apply frame_change; [apply frame_gvar, N | reflexivity | reflexivity].
  - cbn [bind]. eexists _, _. split; [reflexivity|]. split; [|split; [|constructor]].
    + cbn [change globals scope]. eapply R_ext; [apply ext_change; reflexivity | exact NEW].
    + apply frame_change; [apply frame_gvar, N | reflexivity | reflexivity].
Qed.
Lemma last_find : forall sc x v, assoc x (last sc []) = Some v -> find_var sc x <> None.
Proof.
  induction sc as [|f sc IH]; intros x v H; cbn [last] in H; [discriminate|]. cbn [find_var].
  destruct sc as [|g sc]; [rewrite H; discriminate|]. destruct (assoc x f); [discriminate|]. eapply IH, H.
Qed.
Lemma fun_ok : forall x ex il, okblock (block_item (BFun x ex il)) (one done (BFun x ex il)).
Proof.
  intros x ex il s e e' f u H N T Q B U. cbn [one] in Q. injection Q as <- <- <-.
  apply Forall_inv in B. unfold okb in B. cbn [f_prev] in B. cbn [block_item]. unfold func_prototype.
  pose proof (R_at _ _ _ x H) as K.
  destruct (find_func x s) as [i|] eqn:FF.
  - unfold find_func in FF. destruct (assoc x (last (scope s) [])) as [[i'|k|]|] eqn:A; try discriminate.
    pose proof (last_find _ _ _ A) as NF. destruct (nth_error (globals s) i') as [o|] eqn:NE; [|discriminate].
    destruct (o_ty o); [discriminate|]. injection FF as <-. rewrite NE. cbn [andb]. rewrite andb_false_r. cbn [bind snd].
    eexists _, _. split; [reflexivity|]. split; [|split; [apply frame_refl, N | constructor]]. apply R_same; [exact H|].
    unfold rel in K. destruct (find_var (scope s) x) as [[i|k|]|]; destruct (visible e x) as [[l t'|j|]|]; try contradiction; try congruence.
    + cbn [rel]. exact K.
    + discriminate B.
  - cbn [bind snd]. eexists _, _. split; [reflexivity|]. 
    assert (NEW : let s' := new_gvar x None s in R (globals s') (scope s') (bind_name x (ELink (extern_link e x) None) e)).
    { cbn [new_gvar globals scope]. apply R_push; [exact N | eapply R_ext; [apply ext_app | exact H] |].
      cbn [rel]. eexists. split; [apply nth_app_end | reflexivity]. }
    destruct (false || il && negb ex).
    + split; [|split; [|constructor]].
      * cbn [change globals scope]. eapply R_ext; [apply ext_change; reflexivity | exact NEW].
      * apply frame_change; [apply frame_gvar, N | reflexivity | auto].
    + split; [exact NEW|]. split; [apply frame_gvar, N | constructor].
Qed.
Fixpoint one_go (l : list bitem) (e : env) {struct l} : env * list fact * list use :=
  match l with
  | [] => (e, [], [])
  | b :: l => let '(e1, f1, u1) := one done b e in let '(e2, f2, u2) := one_go l e1 in (e2, f1 ++ f2, u1 ++ u2)
  end.
Fixpoint item_go (l : list bitem) (s : state) {struct l} : res (state * list (Z * ref)) :=
  match l with
  | [] => Ok (s, [])
  | b :: l => do r1 <- block_item b s; do r2 <- item_go l (fst r1); Ok (fst r2, snd r1 ++ snd r2)
  end.
Lemma go_ok : forall l, Forall (fun b => okblock (block_item b) (one done b)) l -> okblock (item_go l) (one_go l).
Proof.
  induction l as [|b l IH]; intros FA s e e' f u H N T Q B U; cbn [one_go item_go] in *.
  - injection Q as <- <- <-. eexists _, _. split; [reflexivity|]. split; [exact H|]. split; [apply frame_refl, N | constructor].
  - inversion FA; subst. destruct (one done b e) as [[e1 f1] u1] eqn:Q1. destruct (one_go l e1) as [[e2 f2] u2] eqn:Q2.
    injection Q as <- <- <-. apply Forall_app in B. apply Forall_app in U. destruct B as [B1 B2], U as [U1 U2].
    destruct (H2 s e e1 f1 u1 H N T Q1 B1 U1) as (s1 & r1 & E1 & R1 & F1 & A1). rewrite E1. cbn [bind fst snd].
    destruct (IH H3 s1 e1 e2 f2 u2 R1 (fr_ne _ _ F1) (eq_ind_r (fun z => z <> []) T (fr_tl _ _ F1)) Q2 B2 U2) as (s2 & r2 & E2 & R2 & F2 & A2).
    rewrite E2. cbn [bind fst snd]. eexists _, _. split; [reflexivity|]. split; [exact R2|]. split; [eapply frame_trans; eauto | apply Forall2_app; auto].
Qed.
Fixpoint bitem_rect' (P : bitem -> Prop) (HB : forall m, Forall P m -> P (BBlock m)) (HO : forall b, (forall m, b <> BBlock m) -> P b) (b : bitem) : P b :=
  match b with
  | BBlock m => HB m ((fix go l : Forall P l := match l with [] => Forall_nil _ | b :: l => Forall_cons _ (bitem_rect' P HB HO b) (go l) end) m)
  | b => HO b ltac:(discriminate)
  end.
Lemma one_block : forall m e, one done (BBlock m) e = let '(_, f, u) := one_go m ([] :: e) in (e, f, u).
Proof. reflexivity. Qed.
Lemma item_block : forall m s, block_item (BBlock m) s = do r <- item_go m (enter s); Ok (leave (fst r), snd r).
Proof. reflexivity. Qed.
Lemma item_ok : forall b, okblock (block_item b) (one done b).
Proof.
  apply bitem_rect'.
  - intros m FA s e e' f u H N T Q B U. rewrite one_block in Q. rewrite item_block.
    destruct (one_go m ([] :: e)) as [[e1 f1] u1] eqn:Q1. injection Q as <- <- <-.
    destruct (go_ok m FA (enter s) ([] :: e) e1 f1 u1) as (s1 & r1 & E1 & R1 & F1 & A1); auto.
    + apply R_enter, H.
    + discriminate.
    + rewrite E1. cbn [bind fst snd]. eexists _, _. split; [reflexivity|].
      pose proof (fr_tl _ _ F1) as TL. cbn [enter scope tl] in TL.
      split; [|split; [|exact A1]].
      * unfold leave. cbn [globals scope]. rewrite TL. eapply R_ext; [apply (frame_ext _ _ F1) | exact H].
      * constructor; unfold leave; cbn [globals scope recs]; try apply F1; try (rewrite TL; auto; fail).
  - intros b NB. destruct b as [k x|k x|x|x tls t|x ex il|m].
    + intros s e e' f u H N T Q B U. cbn [one] in Q. injection Q as <- <- <-. apply Forall_inv in U. unfold oku in U. cbn [snd] in U.
      destruct (name_ok s e k x H U) as (r & E & A). cbn [block_item]. rewrite E. cbn [bind].
      eexists _, _. split; [reflexivity|]. split; [exact H|]. split; [apply frame_refl, N | constructor; [exact A | constructor]].
    + intros s e e' f u H N T Q B U. cbn [one] in Q. injection Q as <- <- <-. cbn [block_item].
      eexists _, _. split; [reflexivity|]. cbn [globals scope]. split; [apply R_push; auto; reflexivity|]. split; [|constructor].
      constructor; cbn [globals scope recs]; auto; destruct (scope s); try reflexivity; try congruence. discriminate.
    + intros s e e' f u H N T Q B U. cbn [one] in Q. injection Q as <- <- <-. cbn [block_item].
      eexists _, _. split; [reflexivity|]. cbn [globals scope]. split; [apply R_push; auto; exact Logic.I|]. split; [|constructor].
      constructor; cbn [globals scope recs]; auto; destruct (scope s); try reflexivity; try congruence. discriminate.
    + apply extern_ok.
    + apply fun_ok.
    + destruct (NB m eq_refl).
Qed.
Lemma block_ok : forall l, okblock (block_items l) (block done l).
Proof.
  intro l. apply (go_ok l). apply Forall_forall. intros b _. apply item_ok.
Qed.
End BlockProofs.
