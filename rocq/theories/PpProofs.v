(** C10, C49: the preprocessor's conditional stack against the tree semantics. *)
From Coq Require Import Ascii String ZArith List Bool Lia.
From Verif Require Import Base PpSpec PpModel.
Import ListNotations.
Local Open Scope string_scope.
Local Open Scope list_scope.

Ltac bnd H :=
  repeat match type of H with
  | bind ?o _ = Ok _ =>
      let E := fresh "E" in let x := fresh "x" in
      destruct o as [x| |] eqn:E; [cbn [bind] in H|discriminate H|discriminate H]
  end.

Scheme items_mut := Induction for items Sort Prop
  with tail_mut := Induction for tail Sort Prop.
Combined Scheme items_tail_ind from items_mut, tail_mut.

Fixpoint imap {A B} (f : A -> B) (t : items A) : items B :=
  match t with
  | INil => INil
  | ILine l rest => ILine (map f l) (imap f rest)
  | IDir h d r rest => IDir (f h) (f d) (map f r) (imap f rest)
  | ICond h d r g t rest => ICond (f h) (f d) (map f r) (imap f g) (tmap f t) (imap f rest)
  end
with tmap {A B} (f : A -> B) (t : tail A) : tail B :=
  match t with
  | TEnd h d r => TEnd (f h) (f d) (map f r)
  | TElif h d r g t => TElif (f h) (f d) (map f r) (imap f g) (tmap f t)
  | TElse h d r g h' d' r' => TElse (f h) (f d) (map f r) (imap f g) (f h') (f d') (map f r')
  end.

Lemma print_imap A B (f : A -> B) :
  (forall t, print (imap f t) = map f (print t)) /\ (forall t, print_tail (tmap f t) = map f (print_tail t)).
Proof.
  apply items_tail_ind; intros; cbn [imap tmap print print_tail map]; rewrite ?map_app; cbn [map]; rewrite ?map_app; congruence.
Qed.
Lemma imap_imap A B C (f : A -> B) (g : B -> C) :
  (forall t, imap g (imap f t) = imap (fun x => g (f x)) t) /\ (forall t, tmap g (tmap f t) = tmap (fun x => g (f x)) t).
Proof. apply items_tail_ind; intros; cbn [imap tmap]; rewrite ?map_map; congruence. Qed.
Lemma imap_id A : (forall t : items A, imap (fun x => x) t = t) /\ (forall t : tail A, tmap (fun x => x) t = t).
Proof. apply items_tail_ind; intros; cbn [imap tmap]; rewrite ?map_id; congruence. Qed.

(** *** Lines *)
Definition inline (r : list ptok) : Prop := Forall (fun t => pbol t = false) r.
Lemma inline_rest r : line_rest (map tk r) <-> inline r.
Proof. unfold line_rest, inline. rewrite Forall_map. reflexivity. Qed.
Definition starts (l : list ptok) : Prop := match l with [] => True | t :: _ => pbol t = true end.

Lemma skip_line_in r c : inline r -> starts c -> skip_line (r ++ c) = c.
Proof.
  intros H S. induction H as [|t r E H IH]; cbn [app skip_line].
  - destruct c; cbn [skip_line]; [reflexivity|]. cbn [starts] in S. rewrite S. reflexivity.
  - rewrite E. exact IH.
Qed.
Lemma line_of_in r c : inline r -> starts c -> line_of (r ++ c) = map tk r.
Proof.
  intros H S. induction H as [|t r E H IH]; cbn [app line_of map].
  - destruct c; cbn [line_of]; [reflexivity|]. cbn [starts] in S. rewrite S. reflexivity.
  - rewrite E, IH. reflexivity.
Qed.
Lemma skip_cond_in k r c : inline r -> skip_cond_incl k (r ++ c) = skip_cond_incl k c.
Proof.
  intros H. induction H as [|t r E H IH]; cbn [app]; [reflexivity|]. cbn [skip_cond_incl]. unfold is_hash. rewrite E. exact IH.
Qed.
Lemma starts_items t c : wf (imap tk t) -> starts c -> starts (print t ++ c).
Proof.
  destruct t; cbn [imap print wf app starts]; auto.
  - intros [[h [r [E [B _]]]] _] _. destruct l; [discriminate|]. injection E as <- _. exact B.
  - intros [[B _] _] _. exact B.
  - intros [[B _] _] _. exact B.
Qed.
Lemma starts_tail t c : wf_tail (tmap tk t) -> starts (print_tail t ++ c).
Proof. destruct t; cbn [tmap print_tail wf_tail app starts]; intros [[B _] _]; exact B. Qed.

Lemma hash_dir h d r : dir_line (tk h) (tk d) (map tk r) -> is_hash h = true /\ pbol d = false /\ inline r.
Proof.
  intros [B [T [D L]]]. split; [|split; [exact D|apply inline_rest; exact L]]. unfold is_hash, equal. rewrite T. unfold pbol. rewrite B. reflexivity.
Qed.

(** Names: decide every comparison with a known name. *)
Ltac names H := cbn [In] in H; repeat match type of H with _ \/ _ => destruct H as [H|H] | False => destruct H end.
Lemma equal_text t s s' : text (tk t) = s -> equal t s' = String.eqb s s'.
Proof. intros <-. reflexivity. Qed.
Lemma not_in_names t ss : ~ In (text (tk t)) ss -> existsb (fun s => equal t s) ss = false.
Proof.
  intros H. apply not_true_is_false. intros E. apply existsb_exists in E. destruct E as [s [I1 E]]. apply String.eqb_eq in E. subst. exact (H I1).
Qed.

Lemma skip_step_other k h d r c : is_hash h = true -> pbol d = false -> inline r -> ~ In (text (tk d)) cond_names ->
  skip_cond_incl k (h :: d :: r ++ c) = skip_cond_incl k c.
Proof.
  intros H D R N. apply not_in_names in N. unfold cond_names in N. cbn [existsb] in N. repeat (apply orb_false_iff in N; destruct N as [? N]).
  assert (SK : forall k, skip_cond_incl k (d :: r ++ c) = skip_cond_incl k c) by (intros; apply (skip_cond_in k0 (d :: r) c); constructor; assumption).
  change (skip_cond_incl k (h :: d :: r ++ c)) with
    (if is_hash h then if eqany (d :: r ++ c) ["if"; "ifdef"; "ifndef"] then skip_cond_incl (S k) (r ++ c)
     else match k with S lvl' => if eqn (d :: r ++ c) "endif" then skip_cond_incl lvl' (r ++ c) else skip_cond_incl k (d :: r ++ c)
       | O => if eqany (d :: r ++ c) ["endif"; "else"; "elif"; "elifdef"; "elifndef"] then h :: d :: r ++ c else skip_cond_incl k (d :: r ++ c) end
     else skip_cond_incl k (d :: r ++ c)).
  rewrite H. cbn [eqany existsb eqn]. rewrite H0, H1, H2, H3, H4, H5, H6, H7. cbn [orb]. destruct k; apply SK.
Qed.
Lemma skip_step_if k h d r c : is_hash h = true -> In (text (tk d)) ["if"; "ifdef"; "ifndef"] -> inline r ->
  skip_cond_incl k (h :: d :: r ++ c) = skip_cond_incl (S k) c.
Proof.
  intros H N R. change (skip_cond_incl k (h :: d :: r ++ c)) with
    (if is_hash h then if eqany (d :: r ++ c) ["if"; "ifdef"; "ifndef"] then skip_cond_incl (S k) (r ++ c)
     else match k with S lvl' => if eqn (d :: r ++ c) "endif" then skip_cond_incl lvl' (r ++ c) else skip_cond_incl k (d :: r ++ c)
       | O => if eqany (d :: r ++ c) ["endif"; "else"; "elif"; "elifdef"; "elifndef"] then h :: d :: r ++ c else skip_cond_incl k (d :: r ++ c) end
     else skip_cond_incl k (d :: r ++ c)).
  rewrite H. cbn [eqany existsb eqn]. rewrite skip_cond_in by exact R.
  names N; rewrite !(equal_text d _ _ (eq_sym N)); reflexivity.
Qed.
Lemma skip_step_end k h d r c : is_hash h = true -> text (tk d) = "endif" -> inline r ->
  skip_cond_incl (S k) (h :: d :: r ++ c) = skip_cond_incl k c.
Proof.
  intros H N R. change (skip_cond_incl (S k) (h :: d :: r ++ c)) with
    (if is_hash h then if eqany (d :: r ++ c) ["if"; "ifdef"; "ifndef"] then skip_cond_incl (S (S k)) (r ++ c)
     else if eqn (d :: r ++ c) "endif" then skip_cond_incl k (r ++ c) else skip_cond_incl (S k) (d :: r ++ c)
     else skip_cond_incl (S k) (d :: r ++ c)).
  rewrite H. cbn [eqany existsb eqn]. rewrite !(equal_text d _ _ N). cbn [String.eqb Ascii.eqb Bool.eqb orb]. apply skip_cond_in. exact R.
Qed.
Lemma skip_step_mid k h d r c : is_hash h = true -> In (text (tk d)) ["else"; "elif"; "elifdef"; "elifndef"] -> pbol d = false -> inline r ->
  skip_cond_incl (S k) (h :: d :: r ++ c) = skip_cond_incl (S k) c.
Proof.
  intros H N D R. change (skip_cond_incl (S k) (h :: d :: r ++ c)) with
    (if is_hash h then if eqany (d :: r ++ c) ["if"; "ifdef"; "ifndef"] then skip_cond_incl (S (S k)) (r ++ c)
     else if eqn (d :: r ++ c) "endif" then skip_cond_incl k (r ++ c) else skip_cond_incl (S k) (d :: r ++ c)
     else skip_cond_incl (S k) (d :: r ++ c)).
  rewrite H. cbn [eqany existsb eqn].
  assert (SK : skip_cond_incl (S k) (d :: r ++ c) = skip_cond_incl (S k) c) by (apply (skip_cond_in (S k) (d :: r) c); constructor; assumption).
  names N; rewrite !(equal_text d _ _ (eq_sym N)); exact SK.
Qed.
(** Skipping stops at the next part of the conditional. *)
Lemma skip_stop h d c : is_hash h = true -> In (text (tk d)) ["endif"; "else"; "elif"; "elifdef"; "elifndef"] ->
  skip_cond_incl 0 (h :: d :: c) = h :: d :: c.
Proof.
  intros H N. change (skip_cond_incl 0 (h :: d :: c)) with
    (if is_hash h then if eqany (d :: c) ["if"; "ifdef"; "ifndef"] then skip_cond_incl 1 c
     else if eqany (d :: c) ["endif"; "else"; "elif"; "elifdef"; "elifndef"] then h :: d :: c else skip_cond_incl 0 (d :: c)
     else skip_cond_incl 0 (d :: c)).
  rewrite H. cbn [eqany existsb eqn]. names N; rewrite !(equal_text d _ _ (eq_sym N)); reflexivity.
Qed.

Lemma skip_tree :
  (forall t, wf (imap tk t) -> forall k c, skip_cond_incl k (print t ++ c) = skip_cond_incl k c) /\
  (forall t, wf_tail (tmap tk t) -> forall k c, skip_cond_incl (S k) (print_tail t ++ c) = skip_cond_incl k c).
Proof.
  apply items_tail_ind; cbn [imap tmap wf wf_tail print print_tail app].
  - reflexivity.
  - intros l rest IH [[h [r [E [B [N L]]]]] W] k c. rewrite <- app_assoc. rewrite <- (IH W k c).
    destruct l as [|h' r']; [discriminate|]. injection E as <- <-. assert (HH : is_hash h' = false) by (unfold is_hash, equal; rewrite (proj2 (String.eqb_neq _ _) N); apply andb_false_r).
    cbn [app skip_cond_incl]. rewrite HH. apply skip_cond_in. apply inline_rest. exact L.
  - intros h d r rest IH [D [N [_ W]]] k c. apply hash_dir in D. destruct D as [H [D R]]. rewrite <- app_assoc, skip_step_other by assumption. apply IH. exact W.
  - intros h d r g IHg t IHt rest IHr [D [N [_ [Wg [Wt W]]]]] k c. apply hash_dir in D. destruct D as [H [D R]].
    rewrite <- !app_assoc, skip_step_if by assumption. rewrite IHg, IHt, IHr by assumption. reflexivity.
  - intros h d r [D N] k c. apply hash_dir in D. destruct D as [H [D R]]. apply skip_step_end; assumption.
  - intros h d r g IHg t IHt [D [N [_ [Wg Wt]]]] k c. apply hash_dir in D. destruct D as [H [D R]].
    rewrite <- !app_assoc, skip_step_mid by (try assumption; cbn [In] in *; tauto). rewrite IHg, IHt by assumption. reflexivity.
  - intros h d r g IHg h' d' r' [D [N [Wg [D' N']]]] k c. apply hash_dir in D, D'. destruct D as [H [D R]], D' as [H' [D' R']].
    rewrite <- !app_assoc, skip_step_mid by (try assumption; rewrite N; cbn [In]; tauto). rewrite IHg by assumption. cbn [app]. apply skip_step_end; assumption.
Qed.
(** Skipping a group from inside its conditional. *)
Lemma skip_group g t c : wf (imap tk g) -> wf_tail (tmap tk t) -> skip_cond_incl 0 (print g ++ print_tail t ++ c) = print_tail t ++ c.
Proof.
  intros Wg Wt. destruct skip_tree as [S1 _]. rewrite S1 by exact Wg.
  destruct t; cbn [tmap wf_tail print_tail app] in *.
  - destruct Wt as [D N]. apply hash_dir in D. apply skip_stop; [apply D|]. rewrite N. cbn [In]; tauto.
  - destruct Wt as [D [N _]]. apply hash_dir in D. apply skip_stop; [apply D|]. cbn [In] in *; tauto.
  - destruct Wt as [D [N _]]. apply hash_dir in D. apply skip_stop; [apply D|]. rewrite N. cbn [In]; tauto.
Qed.
Lemma skip_group_d d r g t c : pbol d = false -> inline r -> wf (imap tk g) -> wf_tail (tmap tk t) ->
  skip_cond_incl 0 (d :: r ++ print g ++ print_tail t ++ c) = print_tail t ++ c.
Proof.
  intros D R Wg Wt. change (d :: r ++ print g ++ print_tail t ++ c) with ((d :: r) ++ print g ++ print_tail t ++ c).
  rewrite skip_cond_in by (constructor; assumption). apply skip_group; assumption.
Qed.

(** *** Simulation *)
Section Sim.
Variable e : env.
Variable tree : nat -> items stok.
Hypothesis Hfiles : forall p, files e p = Ok (print (tree p)).
Hypothesis Hwf : forall p, wf (tree p).

(** The file is one #ifndef g ... #endif without other branches. *)
Definition guarded (p : nat) (g : string) : Prop :=
  exists h d n r grp h' d' r', tree p = ICond h d (n :: r) grp (TEnd h' d' r') INil /\ text d = "ifndef" /\ text n = g.

Record R (cs : list cond) (st : pstate) (s : sstate) : Prop := {
  R_macros : pmacros st = smacros s;
  R_once : once st = sonce s;
  R_out : out st = sout s;
  R_conds : conds st = cs;
  R_guards : forall p g, In (p, g) (guards st) -> guarded p g
}.

Definition reaches (l : list ptok) (st : pstate) (o : outcome sstate) (cs : list cond) (cont : list ptok) : Prop :=
  match o with
  | Ok s' => exists k st', R cs st' s' /\ forall f, run e (k + f) l st = run e f cont st'
  | Abort => exists k, forall f, run e (k + f) l st = Abort
  | UB => True
  end.

Lemma reaches_nil st s cs cont : R cs st s -> reaches cont st (Ok s) cs cont.
Proof. intros HR. exists 0%nat, st. auto. Qed.
Lemma reaches_step l st o cs cont l2 st2 : (forall f, run e (S f) l st = run e f l2 st2) -> reaches l2 st2 o cs cont -> reaches l st o cs cont.
Proof.
  intros H. destruct o as [s'| |]; cbn [reaches]; [|auto|].
  - intros [k [st' [HR G]]]. exists (S k), st'. split; [exact HR|]. intros f. cbn [Nat.add]. rewrite H. apply G.
  - intros [k G]. exists (S k). intros f. cbn [Nat.add]. rewrite H. apply G.
Qed.
Lemma reaches_abort l st cs cont : (forall f, run e (S f) l st = Abort) -> reaches l st Abort cs cont.
Proof. intros H. exists 1%nat. exact H. Qed.
Lemma reaches_bind l st o cs mid k cs2 cont : reaches l st o cs mid ->
  (forall st' s', o = Ok s' -> R cs st' s' -> reaches mid st' (k s') cs2 cont) -> reaches l st (bind o k) cs2 cont.
Proof.
  intros H G. destruct o as [s'| |]; cbn [bind]; [|exact Logic.I|exact H].
  destruct H as [n [st' [HR E]]]. specialize (G st' s' eq_refl HR). destruct (k s') as [s2| |]; cbn [reaches] in *; [|auto|].
  - destruct G as [m [st2 [R2 G]]]. exists (n + m)%nat, st2. split; [exact R2|]. intros f. rewrite <- Nat.add_assoc, E. apply G.
  - destruct G as [m G]. exists (n + m)%nat. intros f. rewrite <- Nat.add_assoc, E. apply G.
Qed.

(** One directive. *)
Lemma run_dir f h l st : is_hash h = true -> run e (S f) (h :: l) st = (do q <- directives e h l st; run e f (snd q) (fst q)).
Proof. intros H. cbn [run]. rewrite H. reflexivity. Qed.
Lemma run_line st r c : inline r -> forall f,
  run e (length r + f) (r ++ c) st = run e f c (mkpst (pmacros st) (conds st) (once st) (guards st) (out st ++ map tk r)).
Proof.
  intros HI f. revert st. induction HI as [|t r E H IH]; intros st; cbn [length app map].
  - rewrite app_nil_r. destruct st; reflexivity.
  - cbn [Nat.add run]. unfold is_hash. rewrite E. cbn [andb]. rewrite IH. cbn [pmacros conds once guards out]. rewrite <- app_assoc. reflexivity.
Qed.

(** The condition of a directive, as evaluated by the code. *)
Lemma find_spec m r c : (exists n r', map tk r = n :: r' /\ ident n = true) ->
  find_macro m (r ++ c) = match map tk r with n :: _ => is_some (lookup (text n) m) | [] => false end.
Proof. intros [n [r' [E I1]]]. destruct r as [|x r]; [discriminate|]. injection E as <- <-. cbn [app find_macro map]. rewrite I1. reflexivity. Qed.
Lemma skip_next r c : (exists n r', map tk r = n :: r' /\ ident n = true) -> inline r -> starts c -> skip_line_next (r ++ c) = Ok c.
Proof.
  intros [n [r' [E I1]]] HI HS. destruct r as [|x r]; [discriminate|]. cbn [app skip_line_next]. inversion HI; subst. rewrite skip_line_in by assumption. reflexivity.
Qed.

(** May record a guard at the end of this tail. *)
Definition G (c : cond) (t : tail ptok) : Prop :=
  match t with
  | TEnd _ d _ => tguard d = true -> guard c = true -> tfile d = gfile c -> guarded (tfile d) (gname c)
  | _ => True
  end.
Fixpoint flags (t : items ptok) : Prop :=
  match t with
  | INil => True
  | ILine _ rest => flags rest
  | IDir _ _ _ rest => flags rest
  | ICond h d r g t rest =>
      tguard h = false /\ (forall b, G (mkcond false b (tguard d) (tfile d) (match r with n :: _ => text (tk n) | [] => "" end)) t) /\
      flags g /\ flags_tail t /\ flags rest
  end
with flags_tail (t : tail ptok) : Prop :=
  match t with
  | TEnd _ _ _ => True
  | TElif _ _ _ g t => flags g /\ flags_tail t
  | TElse _ _ _ g _ _ _ => flags g
  end.
Fixpoint infile (p : nat) (t : items ptok) : Prop :=
  match t with
  | INil => True
  | ILine _ rest => infile p rest
  | IDir h d _ rest => tfile h = p /\ tfile d = p /\ infile p rest
  | ICond _ _ _ g t rest => infile p g /\ infile_tail p t /\ infile p rest
  end
with infile_tail (p : nat) (t : tail ptok) : Prop :=
  match t with
  | TEnd _ _ _ => True
  | TElif _ _ _ g t => infile p g /\ infile_tail p t
  | TElse _ _ _ g _ _ _ => infile p g
  end.

Lemma G_clear c t : guard c = false -> G c t.
Proof. intros E. destruct t; cbn [G]; auto. congruence. Qed.

Ltac dirs N := rewrite ?(equal_text _ _ _ N); cbn [String.eqb Ascii.eqb Bool.eqb existsb orb].

(** #endif *)
Lemma end_ok h d r st s c cs cont : dir_line (tk h) (tk d) (map tk r) -> text (tk d) = "endif" -> starts cont ->
  R (c :: cs) st s -> G c (TEnd h d r) -> reaches (h :: d :: r ++ cont) st (Ok s) cs cont.
Proof.
  intros D N HS [R1 R2 R3 R4 R5] HG. apply hash_dir in D. destruct D as [H [D HI]].
  eapply reaches_step. { intros f. rewrite run_dir by exact H. unfold directives. dirs N. unfold with_cond. rewrite R4. cbn [bind fst snd]. rewrite skip_line_in by assumption. reflexivity. }
  apply reaches_nil. constructor; cbn [pmacros once out conds guards]; auto.
  intros p g. destruct (tguard d) eqn:T; [|apply R5]. destruct (guard c) eqn:C; [|apply R5]. destruct (Nat.eqb_spec (tfile d) (gfile c)) as [E|]; [|apply R5].
  cbn [andb]. intros [E2|X]; [|apply R5; exact X]. injection E2 as <- <-. apply HG; auto.
Qed.

(** The rest of a conditional of which a group was taken. *)
Lemma tail_done t : wf_tail (tmap tk t) -> forall st s c cs cont, starts cont -> R (c :: cs) st s -> G c t ->
  been_active c = true -> is_else c = false -> reaches (print_tail t ++ cont) st (Ok s) cs cont.
Proof.
  revert t. apply (tail_mut ptok (fun _ => True) (fun t => wf_tail (tmap tk t) -> forall st s c cs cont, starts cont -> R (c :: cs) st s -> G c t ->
    been_active c = true -> is_else c = false -> reaches (print_tail t ++ cont) st (Ok s) cs cont)); auto; cbn [tmap wf_tail print_tail app].
  - intros h d r [D N] st s c cs cont HS HR HG BA IE. eapply end_ok; eassumption.
  - intros h d r g _ t IHt [D [N [O [Wg Wt]]]] st s c cs cont HS HR HG BA IE. apply hash_dir in D. destruct D as [H [D HI]]. pose proof HR as [R1 R2 R3 R4 R5].
    assert (IH : forall st', st' = set_conds (clear_guard c :: cs) st -> reaches (print_tail t ++ cont) st' (Ok s) cs cont).
    { intros st' ->. apply (IHt Wt _ s (clear_guard c) cs cont HS); [constructor; auto|apply G_clear; reflexivity|exact BA|exact IE]. }
    rewrite <- !app_assoc. eapply reaches_step; [|apply IH; reflexivity]. intros f. rewrite run_dir by exact H.
    unfold directives. names N; dirs (eq_sym N); unfold with_cond; rewrite R4, IE, BA; cbn [bind fst snd negb andb]; rewrite skip_group_d by assumption; reflexivity.
  - intros h d r g _ h' d' r' [D [N [Wg [D' N']]]] st s c cs cont HS HR HG BA IE. pose proof D' as D2. apply hash_dir in D, D'. destruct D as [H [D HI]], D' as [H' [D' HI']]. pose proof HR as [R1 R2 R3 R4 R5].
    rewrite <- !app_assoc. eapply reaches_step.
    { intros f. rewrite run_dir by exact H. unfold directives. dirs N. unfold with_cond. rewrite R4, IE. cbn [bind fst snd]. rewrite BA.
      rewrite skip_line_in; [|exact HI|].
      2: { apply starts_items; [exact Wg|]. cbn [starts app]. apply andb_prop in H'. apply H'. }
      change (print g ++ (h' :: d' :: r') ++ cont) with (print g ++ print_tail (TEnd h' d' r') ++ cont).
      rewrite skip_group; [reflexivity|exact Wg|]. cbn [tmap wf_tail]. split; [exact D2|exact N']. }
    cbn [print_tail app]. apply (end_ok h' d' r' _ s (mkcond true true false (gfile c) (gname c)) cs cont D2 N' HS).
    + constructor; [exact R1|exact R2|exact R3|reflexivity|exact R5].
    + cbn [G guard]. congruence.
Qed.

Section Inc.
Variable inc : nat -> sstate -> outcome sstate.
Hypothesis Hinc : forall p st s cs cont, R cs st s -> starts cont ->
  match include_file e p st cont with
  | Ok l => reaches l st (inc p s) cs cont
  | Abort => inc p s = Abort
  | UB => inc p s = UB
  end.

Lemma sim :
  (forall t, wf (imap tk t) -> flags t -> forall cur, infile cur t -> forall st s cs cont, R cs st s -> starts cont ->
     reaches (print t ++ cont) st (sem e inc cur (imap tk t) s) cs cont) /\
  (forall t, wf_tail (tmap tk t) -> flags_tail t -> forall cur, infile_tail cur t -> forall st s c cs cont, R (c :: cs) st s -> starts cont ->
     G c t -> been_active c = false -> is_else c = false ->
     reaches (print_tail t ++ cont) st (sem_tail e inc cur (tmap tk t) s) cs cont).
Proof.
  apply items_tail_ind; cbn [imap tmap wf wf_tail print print_tail app sem sem_tail flags flags_tail infile infile_tail].
  - intros _ _ cur _ st s cs cont HR HS. apply reaches_nil. exact HR.
  - (* text *)
    intros l rest IH [[h [r [E [B [N L]]]]] W] F cur IF st s cs cont HR HS. destruct l as [|h0 r0]; [discriminate|]. injection E as <- <-.
    rewrite <- app_assoc. cbn [app].
    assert (HH : is_hash h0 = false) by (unfold is_hash, equal; rewrite (proj2 (String.eqb_neq _ _) N); apply andb_false_r).
    apply inline_rest in L. set (st1 := mkpst (pmacros st) (conds st) (once st) (guards st) (out st ++ map tk (h0 :: r0))).
    assert (R1 : R cs st1 (mksst (smacros s) (sonce s) (sout s ++ map tk (h0 :: r0)))).
    { destruct HR as [R1 R2 R3 R4 R5]. constructor; cbn [pmacros conds once guards out smacros sonce sout]; auto. unfold st1. cbn [out]. congruence. }
    specialize (IH W F cur IF st1 _ cs cont R1 HS).
    assert (ST : forall f, run e (S (length r0) + f) (h0 :: r0 ++ print rest ++ cont) st = run e f (print rest ++ cont) st1).
    { intros f. cbn [Nat.add run]. rewrite HH. rewrite run_line by exact L. cbn [pmacros conds once guards out]. unfold st1. cbn [map]. rewrite <- app_assoc. reflexivity. }
    change (tk h0 :: map tk r0) with (map tk (h0 :: r0)). revert IH. generalize (sem e inc cur (imap tk rest) (mksst (smacros s) (sonce s) (sout s ++ map tk (h0 :: r0)))).
    intros o IH. destruct o as [s2| |]; cbn [reaches] in *; [|auto|].
    + destruct IH as [k [st2 [R2 E]]]. exists (S (length r0) + k)%nat, st2. split; [exact R2|]. intros f. rewrite <- Nat.add_assoc, ST. apply E.
    + destruct IH as [k E]. exists (S (length r0) + k)%nat. intros f. rewrite <- Nat.add_assoc, ST. apply E.
  - (* other directives *)
    intros h d r rest IH [D [N [OP W]]] F cur [IFh [IFd IF]] st s cs cont HR HS. apply hash_dir in D. destruct D as [H [D HI]]. pose proof HR as [R1 R2 R3 R4 R5].
    assert (ST : starts (print rest ++ cont)) by (apply starts_items; assumption).
    rewrite <- app_assoc. cbn [app]. apply not_in_names in N. unfold cond_names in N. cbn [existsb] in N. repeat (apply orb_false_iff in N; destruct N as [? N]).
    unfold other.
    change (String.eqb (text (tk d)) "include") with (equal d "include"). change (String.eqb (text (tk d)) "define") with (equal d "define").
    change (String.eqb (text (tk d)) "undef") with (equal d "undef"). change (String.eqb (text (tk d)) "pragma") with (equal d "pragma").
    change (String.eqb (text (tk d)) "line") with (equal d "line"). change (String.eqb (text (tk d)) "warning") with (equal d "warning").
    assert (EX : forall st' s', R cs st' s' -> (forall f, run e (S f) (h :: d :: r ++ print rest ++ cont) st = run e f (print rest ++ cont) st') ->
      reaches (h :: d :: r ++ print rest ++ cont) st (sem e inc cur (imap tk rest) s') cs cont).
    { intros st' s' HR' E. eapply reaches_step; [exact E|]. apply IH; assumption. }
    destruct (equal d "include") eqn:E1.
    { rewrite <- R1, <- IFh. destruct (resolve e (pmacros st) (tfile h) (map tk r)) as [p| |] eqn:RS; cbn [bind].
      - specialize (Hinc p st s cs (print rest ++ cont) HR ST). destruct (include_file e p st (print rest ++ cont)) as [l'| |] eqn:IL.
        + eapply reaches_bind with (mid := print rest ++ cont) (cs := cs).
          * eapply reaches_step; [|exact Hinc]. intros f. rewrite run_dir by exact H. unfold directives. rewrite E1. rewrite line_of_in, skip_line_in by assumption.
            rewrite RS. cbn [bind]. rewrite IL. reflexivity.
          * intros st' s' _ HR'. rewrite IFh. apply IH; assumption.
        + rewrite Hinc. exact Logic.I.
        + rewrite Hinc. cbn [bind]. apply reaches_abort. intros f. rewrite run_dir by exact H. unfold directives. rewrite E1. rewrite line_of_in, skip_line_in by assumption.
          rewrite RS. cbn [bind]. rewrite IL. reflexivity.
      - exact Logic.I.
      - apply reaches_abort. intros f. rewrite run_dir by exact H. unfold directives. rewrite E1. rewrite line_of_in by assumption. rewrite RS. reflexivity. }
    destruct (equal d "define") eqn:E2.
    { destruct r as [|n r2]; cbn [map app].
      { exfalso. apply String.eqb_eq in E2. apply OP; [rewrite E2; left; reflexivity|reflexivity]. }
      inversion HI; subst. destruct (ident (tk n)) eqn:ID.
      + cbn [bind]. rewrite <- R1, <- R2, <- R3. apply EX with (st' := set_macros ((text (tk n), map tk r2) :: undef (text (tk n)) (pmacros st)) st).
        * constructor; cbn [pmacros smacros once sonce out sout conds guards set_macros]; auto.
        * intros f. rewrite run_dir by exact H. unfold directives. cbn [app]. rewrite E1, E2, ID. cbn [bind fst snd]. rewrite line_of_in, skip_line_in by assumption. reflexivity.
      + apply reaches_abort. intros f. rewrite run_dir by exact H. unfold directives. cbn [app]. rewrite E1, E2, ID. reflexivity. }
    destruct (equal d "undef") eqn:E3.
    { destruct r as [|n r2]; cbn [map app].
      { exfalso. apply String.eqb_eq in E3. apply OP; [rewrite E3; right; left; reflexivity|reflexivity]. }
      inversion HI; subst. destruct (ident (tk n)) eqn:ID.
      + cbn [bind]. rewrite <- R1, <- R2, <- R3. apply EX with (st' := set_macros (undef (text (tk n)) (pmacros st)) st).
        * constructor; cbn [pmacros smacros once sonce out sout conds guards set_macros]; auto.
        * intros f. rewrite run_dir by exact H. unfold directives. cbn [app]. rewrite E1, E2, E3, ID. cbn [bind fst snd]. rewrite skip_line_in by assumption. reflexivity.
      + apply reaches_abort. intros f. rewrite run_dir by exact H. unfold directives. cbn [app]. rewrite E1, E2, E3, ID. reflexivity. }
    destruct (equal d "pragma") eqn:E4.
    { cbn [bind].
      destruct r as [|n r2]; cbn [map app].
      { exfalso. apply String.eqb_eq in E4. apply OP; [rewrite E4; do 2 right; left; reflexivity|reflexivity]. }
      inversion HI; subst. change (String.eqb (text (tk n)) "once") with (equal n "once").
      replace (if equal n "once" then mksst (smacros s) (tfile d :: sonce s) (sout s) else s) with (if equal n "once" then mksst (smacros s) (tfile d :: sonce s) (sout s) else s) by reflexivity.
      apply EX with (st' := if equal n "once" then mkpst (pmacros st) (conds st) (tfile d :: once st) (guards st) (out st) else st).
      - destruct (equal n "once"); [|exact HR]. constructor; cbn [pmacros smacros once sonce out sout conds guards]; auto. congruence.
      - intros f. rewrite run_dir by exact H. unfold directives. rewrite E1, E2, E3, H0, H1, H2, H3, H4, H5, H6, H7, E4. cbn [bind fst snd app eqn].
        destruct (equal n "once"); cbn [tl]; [rewrite skip_line_in by assumption; reflexivity|].
        change (n :: r2 ++ print rest ++ cont) with ((n :: r2) ++ print rest ++ cont). rewrite skip_line_in by assumption. reflexivity. }
    destruct (equal d "line" || equal d "warning") eqn:E5.
    { cbn [bind]. apply EX with (st' := st); [exact HR|]. intros f. rewrite run_dir by exact H. unfold directives.
      rewrite E1, E2, E3, H0, H1, H2, H3, H4, H5, H6, H7, E4, E5. cbn [bind fst snd]. rewrite skip_line_in by assumption. reflexivity. }
    cbn [bind]. apply reaches_abort. intros f. rewrite run_dir by exact H. unfold directives.
    rewrite E1, E2, E3, H0, H1, H2, H3, H4, H5, H6, H7, E4, E5. destruct (existsb (equal d) _); [reflexivity|]. rewrite D. reflexivity.
  - (* conditional *)
    intros h d r g IHg t IHt rest IHr [D [N [O [Wg [Wt W]]]]] [Fh [Gc [Fg [Ft Fr]]]] cur [Ig [It Ir]] st s cs cont HR HS.
    apply hash_dir in D. destruct D as [H [D HI]]. pose proof HR as [R1 R2 R3 R4 R5].
    assert (S3 : starts (print rest ++ cont)) by (apply starts_items; assumption).
    assert (S2 : starts (print_tail t ++ print rest ++ cont)) by (apply starts_tail; assumption).
    assert (S1 : starts (print g ++ print_tail t ++ print rest ++ cont)) by (apply starts_items; assumption).
    rewrite <- !app_assoc.
    assert (KEY : forall b c, holds e (smacros s) (tk d) (map tk r) = Ok b -> is_else c = false -> been_active c = b -> G c t ->
      (forall f, run e (S f) (h :: d :: r ++ print g ++ print_tail t ++ print rest ++ cont) st =
         run e f (if b then print g ++ print_tail t ++ print rest ++ cont else print_tail t ++ print rest ++ cont) (set_conds (c :: cs) st)) ->
      reaches (h :: d :: r ++ print g ++ print_tail t ++ print rest ++ cont) st
        (do b0 <- holds e (smacros s) (tk d) (map tk r); do st' <- (if b0 then sem e inc cur (imap tk g) s else sem_tail e inc cur (tmap tk t) s); sem e inc cur (imap tk rest) st') cs cont).
    { intros b c HB IE BA HG ST. rewrite HB. cbn [bind].
      assert (RC : R (c :: cs) (set_conds (c :: cs) st) s) by (constructor; auto).
      eapply reaches_bind with (cs := cs) (mid := print rest ++ cont).
      - eapply reaches_step; [exact ST|]. destruct b.
        + replace (sem e inc cur (imap tk g) s) with (do st' <- sem e inc cur (imap tk g) s; Ok st') by (destruct (sem e inc cur (imap tk g) s); reflexivity).
          eapply reaches_bind with (cs := c :: cs) (mid := print_tail t ++ print rest ++ cont).
          * apply IHg; assumption.
          * intros st' s' _ HR'. apply tail_done with (c := c); assumption.
        + apply IHt with (c := c); assumption.
      - intros st' s' _ HR'. apply IHr; assumption. }
    names N.
    + (* #if *)
      assert (HO : holds e (smacros s) (tk d) (map tk r) = eval e (smacros s) (map tk r)) by (unfold holds; rewrite <- N; reflexivity).
      assert (GO : forall f, run e (S f) (h :: d :: r ++ print g ++ print_tail t ++ print rest ++ cont) st =
        do a <- eval e (smacros s) (map tk r); run e f (if a then print g ++ print_tail t ++ print rest ++ cont else print_tail t ++ print rest ++ cont)
          (push_cond h (d :: r ++ print g ++ print_tail t ++ print rest ++ cont) a st)).
      { intros f. rewrite run_dir by exact H. unfold directives. dirs (eq_sym N). rewrite line_of_in, skip_line_in by assumption. rewrite <- R1.
        destruct (eval e (pmacros st) (map tk r)) as [a| |]; cbn [bind fst snd]; [|reflexivity|reflexivity]. destruct a; [reflexivity|]. rewrite skip_group by assumption. reflexivity. }
      destruct (eval e (smacros s) (map tk r)) as [b| |] eqn:EV.
      * eapply (KEY b (mkcond false b (tguard h) (tfile h) (text (tk d))) HO); [reflexivity|reflexivity|apply G_clear; exact Fh|].
        intros f. rewrite GO. cbn [bind]. unfold push_cond. rewrite R4. reflexivity.
      * rewrite HO. exact Logic.I.
      * rewrite HO. cbn [bind]. apply reaches_abort. intros f. rewrite GO. reflexivity.
    + destruct O as [O|O]; [rewrite <- N in O; cbn [In] in O; intuition discriminate|].
      eapply (KEY _ (mkcond false _ (tguard d) (tfile d) (match r with n :: _ => text (tk n) | [] => "" end))); [unfold holds; rewrite <- N; reflexivity|reflexivity|reflexivity|apply Gc|].
      intros f. rewrite run_dir by exact H. unfold directives. dirs (eq_sym N). rewrite skip_next by assumption. cbn [bind fst snd]. rewrite find_spec by assumption. rewrite R1, skip_group by assumption.
      unfold push_cond. rewrite R4. destruct O as [n [r' [E _]]]. destruct r as [|x r2]; [discriminate|]. reflexivity.
    + destruct O as [O|O]; [rewrite <- N in O; cbn [In] in O; intuition discriminate|].
      eapply (KEY _ (mkcond false _ (tguard d) (tfile d) (match r with n :: _ => text (tk n) | [] => "" end))); [unfold holds; rewrite <- N; reflexivity|reflexivity|reflexivity|apply Gc|].
      intros f. rewrite run_dir by exact H. unfold directives. dirs (eq_sym N). rewrite skip_next by assumption. cbn [bind fst snd]. rewrite find_spec by assumption. rewrite R1, skip_group by assumption.
      unfold push_cond. rewrite R4. destruct O as [n [r' [E _]]]. destruct r as [|x r2]; [discriminate|]. reflexivity.
  - (* #endif *)
    intros h d r [D N] _ cur _ st s c cs cont HR HS HG BA IE. eapply end_ok; eassumption.
  - (* #elif *)
    intros h d r g IHg t IHt [D [N [O [Wg Wt]]]] [Fg Ft] cur [Ig It] st s c cs cont HR HS HG BA IE.
    apply hash_dir in D. destruct D as [H [D HI]]. pose proof HR as [R1 R2 R3 R4 R5].
    assert (S2 : starts (print_tail t ++ cont)) by (apply starts_tail; assumption).
    assert (S1 : starts (print g ++ print_tail t ++ cont)) by (apply starts_items; assumption).
    rewrite <- !app_assoc.
    assert (KEY : forall b, holds e (smacros s) (tk d) (map tk r) = Ok b ->
      (forall f, run e (S f) (h :: d :: r ++ print g ++ print_tail t ++ cont) st =
         if b then run e f (print g ++ print_tail t ++ cont) (set_conds (active_cond c :: cs) st) else run e f (print_tail t ++ cont) (set_conds (clear_guard c :: cs) st)) ->
      reaches (h :: d :: r ++ print g ++ print_tail t ++ cont) st
        (do b0 <- holds e (smacros s) (tk d) (map tk r); if b0 then sem e inc cur (imap tk g) s else sem_tail e inc cur (tmap tk t) s) cs cont).
    { intros b HB ST. rewrite HB. cbn [bind]. destruct b.
      - eapply reaches_step; [exact ST|]. replace (sem e inc cur (imap tk g) s) with (do st' <- sem e inc cur (imap tk g) s; Ok st') by (destruct (sem e inc cur (imap tk g) s); reflexivity).
        eapply reaches_bind with (cs := active_cond c :: cs) (mid := print_tail t ++ cont).
        + apply IHg; try assumption. constructor; auto.
        + intros st' s' _ HR'. apply tail_done with (c := active_cond c); try assumption; [apply G_clear; reflexivity|reflexivity].
      - eapply reaches_step; [exact ST|]. apply IHt with (c := clear_guard c); try assumption; [constructor; auto|apply G_clear; reflexivity]. }
    names N.
    + assert (HO : holds e (smacros s) (tk d) (map tk r) = eval e (smacros s) (map tk r)) by (unfold holds; rewrite <- N; reflexivity).
      assert (GO : forall f, run e (S f) (h :: d :: r ++ print g ++ print_tail t ++ cont) st =
        do a <- eval e (smacros s) (map tk r); if a then run e f (print g ++ print_tail t ++ cont) (set_conds (active_cond c :: cs) st) else run e f (print_tail t ++ cont) (set_conds (clear_guard c :: cs) st)).
      { intros f. rewrite run_dir by exact H. unfold directives. dirs (eq_sym N). unfold with_cond. rewrite R4, IE, BA. rewrite line_of_in, skip_line_in by assumption. rewrite <- R1.
        destruct (eval e (pmacros st) (map tk r)) as [a| |]; cbn [bind fst snd]; [|reflexivity|reflexivity]. destruct a; [reflexivity|]. cbn [bind fst snd]. rewrite skip_group by assumption. reflexivity. }
      destruct (eval e (smacros s) (map tk r)) as [b| |] eqn:EV.
      * apply (KEY b HO). intros f. rewrite GO. reflexivity.
      * rewrite HO. exact Logic.I.
      * rewrite HO. cbn [bind]. apply reaches_abort. intros f. rewrite GO. reflexivity.
    + destruct O as [O|O]; [rewrite <- N in O; cbn [In] in O; intuition discriminate|].
      eapply KEY; [unfold holds; rewrite <- N; reflexivity|]. intros f. rewrite run_dir by exact H. unfold directives. dirs (eq_sym N).
      unfold with_cond. rewrite R4, IE, BA. rewrite skip_next by assumption. rewrite find_spec by assumption. rewrite R1. cbn [negb andb]. rewrite skip_group_d by assumption.
      destruct (match map tk r with n :: _ => is_some (lookup (text n) (smacros s)) | [] => false end); reflexivity.
    + destruct O as [O|O]; [rewrite <- N in O; cbn [In] in O; intuition discriminate|].
      eapply KEY; [unfold holds; rewrite <- N; reflexivity|]. intros f. rewrite run_dir by exact H. unfold directives. dirs (eq_sym N).
      unfold with_cond. rewrite R4, IE, BA. rewrite skip_next by assumption. rewrite find_spec by assumption. rewrite R1. cbn [negb andb]. rewrite skip_group_d by assumption.
      destruct (match map tk r with n :: _ => is_some (lookup (text n) (smacros s)) | [] => false end); reflexivity.
  - (* #else *)
    intros h d r g IHg h' d' r' [D [N [Wg [D' N']]]] Fg cur Ig st s c cs cont HR HS HG BA IE. pose proof D' as D2. apply hash_dir in D, D'. destruct D as [H [D HI]], D' as [H' [D' HI']]. pose proof HR as [R1 R2 R3 R4 R5].
    rewrite <- !app_assoc. set (c' := mkcond true (been_active c) false (gfile c) (gname c)).
    assert (S2 : starts ((h' :: d' :: r') ++ cont)) by (cbn [app starts]; apply andb_prop in H'; apply H').
    eapply reaches_step with (l2 := print g ++ (h' :: d' :: r') ++ cont) (st2 := set_conds (c' :: cs) st).
    { intros f. rewrite run_dir by exact H. unfold directives. dirs N. unfold with_cond. rewrite R4, IE. cbn [bind fst snd]. rewrite BA.
      rewrite skip_line_in; [unfold c'; rewrite BA; reflexivity|exact HI|]. apply starts_items; assumption. }
    replace (sem e inc cur (imap tk g) s) with (do st' <- sem e inc cur (imap tk g) s; Ok st') by (destruct (sem e inc cur (imap tk g) s); reflexivity).
    eapply reaches_bind with (cs := c' :: cs) (mid := (h' :: d' :: r') ++ cont).
    + apply IHg; try assumption. constructor; auto.
    + intros st' s' _ HR'. cbn [app]. apply (end_ok h' d' r' st' s' c' cs cont D2 N' HS HR'). apply G_clear. reflexivity.
Qed.
End Inc.

(** *** The guard marks of include_file, on trees *)
Definition sgl_or (d : ptok) (r : list ptok) : ptok * list ptok :=
  match r with [] => (set_guard d, []) | _ => (d, set_guard_last r) end.
Fixpoint tlast (t : tail ptok) : tail ptok :=
  match t with
  | TEnd h d r => TEnd h (fst (sgl_or d r)) (snd (sgl_or d r))
  | TElif h d r g t => TElif h d r g (tlast t)
  | TElse h d r g h' d' r' => TElse h d r g h' (fst (sgl_or d' r')) (snd (sgl_or d' r'))
  end.
Fixpoint ilast (t : items ptok) : items ptok :=
  match t with
  | INil => INil
  | ILine l rest => match rest with INil => ILine (set_guard_last l) INil | _ => ILine l (ilast rest) end
  | IDir h d r rest => match rest with INil => IDir h (fst (sgl_or d r)) (snd (sgl_or d r)) INil | _ => IDir h d r (ilast rest) end
  | ICond h d r g t rest => match rest with INil => ICond h d r g (tlast t) INil | _ => ICond h d r g t (ilast rest) end
  end.
Lemma sgl_app a b : b <> [] -> set_guard_last (a ++ b) = a ++ set_guard_last b.
Proof.
  intros N. induction a as [|x a IH]; [reflexivity|]. cbn [app]. change (set_guard_last (x :: a ++ b)) with (match a ++ b with [] => [set_guard x] | _ => x :: set_guard_last (a ++ b) end).
  destruct (a ++ b) eqn:E; [apply app_eq_nil in E; destruct E; congruence|]. rewrite IH. reflexivity.
Qed.
Lemma sgl_or_ok h d r : h :: fst (sgl_or d r) :: snd (sgl_or d r) = set_guard_last (h :: d :: r).
Proof. destruct r; reflexivity. Qed.
Lemma sgl_tk l : map tk (set_guard_last l) = map tk l.
Proof. induction l as [|x l IH]; [reflexivity|]. destruct l; [reflexivity|]. change (tk x :: map tk (set_guard_last (p :: l)) = tk x :: map tk (p :: l)). congruence. Qed.
Lemma sgl_or_tk d r : tk (fst (sgl_or d r)) = tk d /\ map tk (snd (sgl_or d r)) = map tk r /\ tfile (fst (sgl_or d r)) = tfile d.
Proof. destruct r; [auto|]. cbn [sgl_or fst snd]. rewrite sgl_tk. auto. Qed.
Lemma print_nil t : wf (imap tk t) -> print t = [] -> t = INil.
Proof.
  destruct t; cbn [imap wf print]; auto; try discriminate. intros [[h [r [E _]]] _] P. destruct l; discriminate.
Qed.
Lemma tail_nonnil (t : tail ptok) : print_tail t <> [].
Proof. destruct t; discriminate. Qed.
Lemma print_last :
  (forall t, wf (imap tk t) -> print (ilast t) = set_guard_last (print t)) /\
  (forall t, print_tail (tlast t) = set_guard_last (print_tail t)).
Proof.
  apply items_tail_ind; cbn [imap wf].
  - reflexivity.
  - intros l rest IH [[h [r [E _]]] W]. specialize (IH W). cbn [ilast print]. destruct rest as [|l0 r0|h0 d0 r0 rest0|h0 d0 r0 g0 t0 rest0].
    + cbn [print]. rewrite !app_nil_r. reflexivity.
    + rewrite sgl_app; [cbn [print] in *; rewrite <- IH; reflexivity|]. intros X. apply print_nil in X; [discriminate|exact W].
    + rewrite sgl_app; [cbn [print] in *; rewrite <- IH; reflexivity|discriminate].
    + rewrite sgl_app; [cbn [print] in *; rewrite <- IH; reflexivity|discriminate].
  - intros h d r rest IH [_ [_ [_ W]]]. specialize (IH W). cbn [ilast print]. destruct rest as [|l0 r0|h0 d0 r0 rest0|h0 d0 r0 g0 t0 rest0].
    + cbn [print]. rewrite !app_nil_r. apply sgl_or_ok.
    + cbn [print]. change (h :: d :: r ++ l0 ++ print r0) with ((h :: d :: r) ++ l0 ++ print r0).
      rewrite sgl_app; [cbn [print] in *; rewrite <- IH; reflexivity|]. intros X. apply (print_nil (ILine l0 r0)) in X; [discriminate|exact W].
    + cbn [print]. change (h :: d :: r ++ h0 :: d0 :: r0 ++ print rest0) with ((h :: d :: r) ++ h0 :: d0 :: r0 ++ print rest0).
      rewrite sgl_app; [cbn [print] in *; rewrite <- IH; reflexivity|discriminate].
    + cbn [print]. match goal with |- _ = set_guard_last (h :: d :: r ++ ?b) => change (h :: d :: r ++ b) with ((h :: d :: r) ++ b) end.
      rewrite sgl_app; [cbn [print] in *; rewrite <- IH; reflexivity|discriminate].
  - intros h d r g _ t IHt rest IH [_ [_ [_ [_ [_ W]]]]]. specialize (IH W).
    assert (NE : rest <> INil -> print (ICond h d r g t (ilast rest)) = set_guard_last (print (ICond h d r g t rest))).
    { intros NE. cbn [print]. rewrite IH. match goal with |- _ = set_guard_last (h :: d :: r ++ ?b) => change (h :: d :: r ++ b) with ((h :: d :: r) ++ b) end.
      assert (print rest <> []) by (intros X; apply NE, print_nil; assumption).
      rewrite !app_assoc, sgl_app by assumption. rewrite <- !app_assoc. reflexivity. }
    cbn [ilast]. destruct rest; try (apply NE; discriminate). cbn [print]. rewrite !app_nil_r, IHt.
    match goal with |- _ = set_guard_last (h :: d :: r ++ ?b) => change (h :: d :: r ++ b) with ((h :: d :: r) ++ b) end.
    rewrite !app_assoc, sgl_app by apply tail_nonnil. rewrite <- !app_assoc. reflexivity.
  - intros h d r. cbn [tlast print_tail]. apply sgl_or_ok.
  - intros h d r g _ t IHt. cbn [tlast print_tail]. rewrite IHt.
    match goal with |- _ = set_guard_last (h :: d :: r ++ ?b) => change (h :: d :: r ++ b) with ((h :: d :: r) ++ b) end.
    rewrite !app_assoc, sgl_app by apply tail_nonnil. rewrite <- !app_assoc. reflexivity.
  - intros h d r g _ h' d' r'. cbn [tlast print_tail]. rewrite sgl_or_ok.
    match goal with |- _ = set_guard_last (h :: d :: r ++ ?b) => change (h :: d :: r ++ b) with ((h :: d :: r) ++ b) end.
    rewrite !app_assoc, sgl_app by discriminate. rewrite <- !app_assoc. reflexivity.
Qed.
Lemma last_tk : (forall t, imap tk (ilast t) = imap tk t) /\ (forall t, tmap tk (tlast t) = tmap tk t).
Proof.
  apply items_tail_ind; try reflexivity.
  - intros l rest IH. cbn [ilast]. destruct rest; [cbn [imap]; rewrite sgl_tk; reflexivity| | |]; change (ILine (map tk l) (imap tk (ilast _))) with (ILine (map tk l) (imap tk (ilast _)));
      cbn [imap] in *; rewrite IH; reflexivity.
  - intros h d r rest IH. cbn [ilast]. destruct (sgl_or_tk d r) as [E1 [E2 _]]. destruct rest; cbn [imap] in *; rewrite ?E1, ?E2, ?IH; reflexivity.
  - intros h d r g IHg t IHt rest IH. cbn [ilast]. destruct rest; cbn [imap] in *; rewrite ?IHt, ?IH; reflexivity.
  - intros h d r. cbn [tlast tmap]. destruct (sgl_or_tk d r) as [E1 [E2 _]]. rewrite E1, E2. reflexivity.
  - intros h d r g _ t IHt. cbn [tlast tmap]. rewrite IHt. reflexivity.
  - intros h d r g _ h' d' r'. cbn [tlast tmap]. destruct (sgl_or_tk d' r') as [E1 [E2 _]]. rewrite E1, E2. reflexivity.
Qed.
Lemma last_infile p : (forall t, infile p t -> infile p (ilast t)) /\ (forall t, infile_tail p t -> infile_tail p (tlast t)).
Proof.
  apply items_tail_ind; try (cbn [ilast tlast infile infile_tail]; auto; fail).
  - intros l rest IH H. cbn [ilast]. destruct rest; cbn [infile] in *; auto.
  - intros h d r rest IH [H1 [H2 H3]]. destruct (sgl_or_tk d r) as [_ [_ E]]. cbn [ilast]. destruct rest; cbn [infile] in *; rewrite ?E; auto.
  - intros h d r g IHg t IHt rest IH [H1 [H2 H3]]. cbn [ilast]. destruct rest; cbn [infile] in *; auto.
  - intros h d r g IHg t IHt [H1 H2]. cbn [tlast infile_tail]. auto.
Qed.
(** No conditional opener is marked. *)
Fixpoint nod (t : items ptok) : Prop :=
  match t with
  | INil => True
  | ILine _ rest => nod rest
  | IDir _ _ _ rest => nod rest
  | ICond h d _ g t rest => tguard h = false /\ tguard d = false /\ nod g /\ nod_tail t /\ nod rest
  end
with nod_tail (t : tail ptok) : Prop :=
  match t with
  | TEnd _ _ _ => True
  | TElif _ _ _ g t => nod g /\ nod_tail t
  | TElse _ _ _ g _ _ _ => nod g
  end.
Lemma nod_flags : (forall t, nod t -> flags t) /\ (forall t, nod_tail t -> flags_tail t).
Proof.
  apply items_tail_ind; cbn [nod nod_tail flags flags_tail]; auto.
  - intros h d r g IHg t IHt rest IHr [H1 [H2 [H3 [H4 H5]]]]. split; [exact H1|]. split; [intros b; apply G_clear; exact H2|]. auto.
  - intros h d r g IHg t IHt [H1 H2]. auto.
Qed.
Lemma nod_last : (forall t, nod t -> nod (ilast t)) /\ (forall t, nod_tail t -> nod_tail (tlast t)).
Proof.
  apply items_tail_ind; try (cbn [ilast tlast nod nod_tail]; auto; fail).
  - intros l rest IH H. cbn [ilast]. destruct rest; cbn [nod] in *; auto.
  - intros h d r rest IH H. cbn [ilast]. destruct rest; cbn [nod] in *; auto.
  - intros h d r g IHg t IHt rest IH [H1 [H2 [H3 [H4 H5]]]]. cbn [ilast]. destruct rest; cbn [nod] in *; auto 12.
  - intros h d r g IHg t IHt [H1 H2]. cbn [tlast nod_tail]. auto.
Qed.
Definition mk (p : nat) (t : stok) : ptok := mkptok t p false.
Lemma nod_mk p : (forall t, nod (imap (mk p) t)) /\ (forall t, nod_tail (tmap (mk p) t)).
Proof. apply items_tail_ind; cbn [imap tmap nod nod_tail]; auto 12. Qed.
Lemma infile_mk p : (forall t, infile p (imap (mk p) t)) /\ (forall t, infile_tail p (tmap (mk p) t)).
Proof. apply items_tail_ind; cbn [imap tmap infile infile_tail]; auto. Qed.
Lemma tk_mk p t : imap tk (imap (mk p) t) = t.
Proof. destruct (imap_imap stok ptok stok (mk p) tk) as [E _]. rewrite E. apply (proj1 (imap_id stok)). Qed.

Lemma marked p : exists t, print t = mark_guard (map (mk p) (print (tree p))) /\ imap tk t = tree p /\ flags t /\ infile p t.
Proof.
  pose proof (Hwf p) as W. set (t0 := imap (mk p) (tree p)).
  assert (P0 : map (mk p) (print (tree p)) = print t0) by (symmetry; apply (proj1 (print_imap _ _ (mk p)))).
  assert (T0 : imap tk t0 = tree p) by apply tk_mk.
  assert (W0 : wf (imap tk t0)) by (rewrite T0; exact W).
  rewrite P0. unfold mark_guard. destruct (guard_shape (print t0)) eqn:GS.
  2: { exists t0. repeat split; auto; [apply (proj1 nod_flags), nod_mk|apply infile_mk]. }
  assert (C : exists h d r g t rest, tree p = ICond h d r g t rest /\ text d = "ifndef").
  { unfold t0 in GS. destruct (tree p) as [|l rest|h d r rest|h d r g t rest]; cbn [imap print] in GS.
    - discriminate.
    - exfalso. destruct W as [[h [r [E [B [N L]]]]] _]. subst l. cbn [map app] in GS. unfold guard_shape in GS.
      assert (HH : is_hash (mk p h) = false) by (unfold is_hash, equal, mk; cbn [tk]; rewrite (proj2 (String.eqb_neq _ _) N); apply andb_false_r).
      rewrite HH in GS. destruct (map (mk p) r ++ print (imap (mk p) rest)) as [|x [|y z]]; discriminate.
    - exfalso. destruct W as [_ [N _]]. unfold guard_shape in GS.
      assert (HH : equal (mk p d) "ifndef" = false).
      { apply String.eqb_neq. cbn [mk tk]. intros E. apply N. rewrite E. cbn. tauto. }
      rewrite HH in GS. destruct (map (mk p) r ++ print (imap (mk p) rest)) as [|x z]; [discriminate|]. rewrite andb_false_r in GS. discriminate.
    - exists h, d, r, g, t, rest. split; [reflexivity|]. unfold guard_shape in GS.
      destruct (map (mk p) r ++ _) as [|x z]; [discriminate|]. apply andb_prop in GS. destruct GS as [GS _]. apply andb_prop in GS. destruct GS as [GS _]. apply andb_prop in GS. destruct GS as [_ GS]. apply String.eqb_eq in GS. exact GS. }
  destruct C as [h [d [r [g [t [rest [E TD]]]]]]].
  assert (OP : exists n r', r = n :: r').
  { rewrite E in W. cbn [wf] in W. destruct W as [_ [_ [O _]]]. destruct O as [O|[n [r' [O _]]]]; [rewrite TD in O; cbn [In] in O; intuition discriminate|eauto]. }
  destruct OP as [n [r' ->]].
  assert (E0 : t0 = ICond (mk p h) (mk p d) (map (mk p) (n :: r')) (imap (mk p) g) (tmap (mk p) t) (imap (mk p) rest)) by (unfold t0; rewrite E; reflexivity).
  assert (EL : exists t1 rest1, ilast t0 = ICond (mk p h) (mk p d) (map (mk p) (n :: r')) (imap (mk p) g) t1 rest1 /\
      (rest = INil /\ t1 = tlast (tmap (mk p) t) /\ rest1 = INil \/ t1 = tmap (mk p) t)).
  { rewrite E0. cbn [ilast]. destruct rest; cbn [imap]; eexists _, _; (split; [reflexivity|]); auto. }
  destruct EL as [t1 [rest1 [EL CS]]].
  pose proof (proj1 nod_last _ (proj1 (nod_mk p) (tree p))) as ND. fold t0 in ND. rewrite EL in ND. cbn [nod] in ND. destruct ND as [_ [_ [N3 [N4 N5]]]].
  pose proof (proj1 (last_infile p) _ (proj1 (infile_mk p) (tree p))) as IF. fold t0 in IF. rewrite EL in IF. cbn [infile] in IF.
  pose proof (proj1 print_last _ W0) as PL. pose proof (proj1 last_tk t0) as TL. rewrite T0 in TL. rewrite EL in PL, TL.
  exists (ICond (mk p h) (set_guard (mk p d)) (map (mk p) (n :: r')) (imap (mk p) g) t1 rest1). split; [|split; [|split]].
  - cbn [print] in PL |- *. rewrite E0 in *. cbn [print map app] in PL |- *.
    match type of PL with ?a :: ?b :: ?c = set_guard_last (?a :: ?b :: ?y :: ?z) => change (set_guard_last (a :: b :: y :: z)) with (a :: b :: set_guard_last (y :: z)) in PL end.
    injection PL as PL. rewrite PL. reflexivity.
  - exact TL.
  - cbn [flags]. split; [reflexivity|]. split; [|split; [apply (proj1 nod_flags); exact N3|split; [apply (proj2 nod_flags); exact N4|apply (proj1 nod_flags); exact N5]]].
    intros b. destruct CS as [[-> [-> _]]| ->].
    + destruct t as [h' d' r2|h' d' r2 g' t'|h' d' r2 g' h2 d2 r3]; cbn [tmap tlast G]; auto. intros _ _ _.
      exists h, d, n, r', g, h', d', r2. destruct (sgl_or_tk (mk p d') (map (mk p) r2)) as [_ [_ X]]. rewrite X. cbn [mk tfile map gname tk]. auto.
    + destruct t as [h' d' r2|h' d' r2 g' t'|h' d' r2 g' h2 d2 r3]; cbn [tmap G]; auto. discriminate.
  - exact IF.
Qed.

Lemma lookupn_in {A} p (l : list (nat * A)) x : lookupn p l = Some x -> In (p, x) l.
Proof.
  unfold lookupn. destruct (find _ l) as [q|] eqn:F; [|discriminate]. intros E. injection E as <-. apply find_some in F. destruct F as [F1 F2].
  apply Nat.eqb_eq in F2. destruct q; cbn [fst snd] in *. subst. exact F1.
Qed.

Theorem sim_file n : forall p st s cs cont, R cs st s -> starts cont ->
  match include_file e p st cont with
  | Ok l => reaches l st (sem_file e tree n p s) cs cont
  | Abort => sem_file e tree n p s = Abort
  | UB => sem_file e tree n p s = UB
  end.
Proof.
  induction n as [|n IH]; intros p st s cs cont HR HS.
  - unfold include_file. rewrite Hfiles. cbn [bind sem_file]. destruct (existsb _ _); [exact Logic.I|]. destruct (match lookupn p (guards st) with Some g => _ | None => _ end); exact Logic.I.
  - pose proof HR as [R1 R2 R3 R4 R5]. unfold include_file. cbn [sem_file]. rewrite Hfiles. cbn [bind]. rewrite R2.
    destruct (existsb (Nat.eqb p) (sonce s)); [apply reaches_nil; exact HR|].
    destruct (lookupn p (guards st)) as [gn|] eqn:L.
    + destruct (is_some (lookup gn (pmacros st))) eqn:D.
      * apply lookupn_in in L. apply R5 in L. destruct L as [h [d [x [r [grp [h' [d' [r' [E [TD TN]]]]]]]]]]. rewrite E. cbn [sem sem_tail].
        unfold holds. rewrite TD. cbn [existsb String.eqb Ascii.eqb Bool.eqb orb bind]. rewrite TN, <- R1, D. cbn [negb bind]. apply reaches_nil. exact HR.
      * destruct (marked p) as [t [P [T [F I1]]]]. change (fun t0 : stok => mkptok t0 p false) with (mk p). rewrite <- P, <- T.
        apply (proj1 (sim _ IH)); try assumption. rewrite T. apply Hwf.
    + destruct (marked p) as [t [P [T [F I1]]]]. change (fun t0 : stok => mkptok t0 p false) with (mk p). rewrite <- P, <- T.
      apply (proj1 (sim _ IH)); try assumption. rewrite T. apply Hwf.
Qed.
Lemma run_mono f : forall g l st r, run e f l st = Ok r -> (f <= g)%nat -> run e g l st = Ok r.
Proof.
  induction f as [|f IH]; intros g l st r H L; [discriminate|]. destruct g as [|g]; [lia|]. cbn [run] in *. destruct l as [|t l]; [exact H|].
  destruct (is_hash t).
  - destruct (directives e t l st) as [q| |]; cbn [bind] in *; try discriminate. apply IH; [exact H|lia].
  - apply IH; [exact H|lia].
Qed.

(** The main file is file 0. *)
Theorem preprocess_ok n m s' : sem e (sem_file e tree n) 0 (tree 0) (mksst m [] []) = Ok s' ->
  exists f st', (forall f', (f <= f')%nat -> preprocess e f' (print (tree 0)) m = Ok st') /\ out st' = sout s' /\ pmacros st' = smacros s'.
Proof.
  intros H. pose proof (proj1 (sim _ (sim_file n)) (imap (mk 0) (tree 0))) as S1. rewrite tk_mk in S1.
  specialize (S1 (Hwf 0) (proj1 nod_flags _ (proj1 (nod_mk 0) _)) 0%nat (proj1 (infile_mk 0) _) (mkpst m [] [] [] []) (mksst m [] []) [] []).
  rewrite H in S1. destruct S1 as [k [st' [HR E]]]; [constructor; try reflexivity; cbn [guards]; intros ? ? []|exact Logic.I|].
  exists (k + 1)%nat, st'. destruct HR as [R1 R2 R3 R4 _]. split; [|auto]. intros f' L. unfold preprocess. change (fun t : stok => mkptok t 0 false) with (mk 0).
  rewrite <- (proj1 (print_imap _ _ (mk 0))). specialize (E 1%nat). rewrite app_nil_r in E. cbn [run] in E.
  rewrite (run_mono _ f' _ _ _ E L). cbn [bind]. rewrite R4. reflexivity.
Qed.
Theorem guards_sound n m s' : sem e (sem_file e tree n) 0 (tree 0) (mksst m [] []) = Ok s' ->
  exists f st', (forall f', (f <= f')%nat -> preprocess e f' (print (tree 0)) m = Ok st') /\
    forall p g, In (p, g) (guards st') -> forall inc s, is_some (lookup g (smacros s)) = true -> sem e inc p (tree p) s = Ok s.
Proof.
  intros H. pose proof (proj1 (sim _ (sim_file n)) (imap (mk 0) (tree 0))) as S1. rewrite tk_mk in S1.
  specialize (S1 (Hwf 0) (proj1 nod_flags _ (proj1 (nod_mk 0) _)) 0%nat (proj1 (infile_mk 0) _) (mkpst m [] [] [] []) (mksst m [] []) [] []).
  rewrite H in S1. destruct S1 as [k [st' [HR E]]]; [constructor; try reflexivity; cbn [guards]; intros ? ? []|exact Logic.I|].
  exists (k + 1)%nat, st'. destruct HR as [R1 R2 R3 R4 R5]. split.
  - intros f' L. unfold preprocess. change (fun t : stok => mkptok t 0 false) with (mk 0).
    rewrite <- (proj1 (print_imap _ _ (mk 0))). specialize (E 1%nat). rewrite app_nil_r in E. cbn [run] in E.
    rewrite (run_mono _ f' _ _ _ E L). cbn [bind]. rewrite R4. reflexivity.
  - intros p g IN inc s D. apply R5 in IN. destruct IN as [h [d [x [r [grp [h' [d' [r' [EQ [TD TN]]]]]]]]]]. rewrite EQ. cbn [sem sem_tail].
    unfold holds. rewrite TD. cbn [existsb String.eqb Ascii.eqb Bool.eqb orb bind]. rewrite TN, D. reflexivity.
Qed.
Theorem preprocess_abort n m : sem e (sem_file e tree n) 0 (tree 0) (mksst m [] []) = Abort ->
  exists f, preprocess e f (print (tree 0)) m = Abort.
Proof.
  intros H. pose proof (proj1 (sim _ (sim_file n)) (imap (mk 0) (tree 0))) as S1. rewrite tk_mk in S1.
  specialize (S1 (Hwf 0) (proj1 nod_flags _ (proj1 (nod_mk 0) _)) 0%nat (proj1 (infile_mk 0) _) (mkpst m [] [] [] []) (mksst m [] []) [] []).
  rewrite H in S1. destruct S1 as [k E]; [constructor; try reflexivity; cbn [guards]; intros ? ? []|exact Logic.I|].
  exists (k + 0)%nat. unfold preprocess. change (fun t : stok => mkptok t 0 false) with (mk 0).
  rewrite <- (proj1 (print_imap _ _ (mk 0))). specialize (E 0%nat). rewrite app_nil_r in E. rewrite E. reflexivity.
Qed.
End Sim.

(** *** Balance *)
Lemma is_hash_spec t : is_hash t = hash (tk t).
Proof. reflexivity. Qed.
Lemma lines_tail h r : lines_ok (h :: r) = true -> lines_ok r = true.
Proof. cbn [lines_ok]. intros H. apply andb_prop in H. apply H. Qed.
Lemma lines_hash h r : lines_ok (h :: r) = true -> hash h = true -> exists d r2, r = d :: r2 /\ bol d = false /\
  (oneof d ["ifdef"; "ifndef"; "elifdef"; "elifndef"; "define"; "undef"] = true -> exists n r3, r2 = n :: r3 /\ bol n = false).
Proof.
  cbn [lines_ok]. intros H E. rewrite E in H. apply andb_prop in H. destruct H as [H _]. destruct r as [|d r2]; [discriminate|].
  apply andb_prop in H. destruct H as [H1 H2]. exists d, r2. split; [reflexivity|]. apply negb_true_iff in H1. split; [exact H1|]. intros O. rewrite O in H2.
  destruct r2 as [|n r3]; [discriminate|]. apply negb_true_iff in H2. eauto.
Qed.
Lemma hash_bol t : bol t = false -> hash t = false.
Proof. unfold hash. intros ->. reflexivity. Qed.
Lemma balanced_in k t r : bol t = false -> balanced k (t :: r) = balanced k r.
Proof. intros H. cbn [balanced]. rewrite (hash_bol _ H). reflexivity. Qed.
Lemma balanced_skip_line k l : balanced k (map tk (skip_line l)) = balanced k (map tk l).
Proof. induction l as [|t l IH]; [reflexivity|]. cbn [skip_line]. destruct (pbol t) eqn:B; [reflexivity|]. rewrite IH. symmetry. apply balanced_in. exact B. Qed.
Lemma lines_skip_line l : lines_ok (map tk l) = true -> lines_ok (map tk (skip_line l)) = true.
Proof. induction l as [|t l IH]; [auto|]. cbn [skip_line]. destruct (pbol t) eqn:B; [auto|]. intros H. apply IH. apply lines_tail in H. exact H. Qed.
Lemma eqany_oneof d r ss : eqany (d :: r) ss = oneof (tk d) ss.
Proof. reflexivity. Qed.
Lemma skip_cond_balanced k : forall l lvl, skip_cond_incl lvl l <> [] -> lines_ok (map tk l) = true ->
  balanced (lvl + k) (map tk l) = balanced k (map tk (skip_cond_incl lvl l)) /\ lines_ok (map tk (skip_cond_incl lvl l)) = true.
Proof.
  intros l. remember (length l) as n eqn:L. assert (L' : (length l <= n)%nat) by lia. clear L. revert l L'.
  induction n as [|n IH]; intros l L lvl NE OK; [destruct l; [exfalso; apply NE; reflexivity|cbn in L; lia]|].
  destruct l as [|t r]; [exfalso; apply NE; reflexivity|]. cbn [length] in L. cbn [skip_cond_incl] in NE |- *. cbn [map] in OK |- *. pose proof (lines_tail _ _ OK) as OR.
  destruct (is_hash t) eqn:H.
  - destruct (lines_hash _ _ OK H) as [d0 [r2 [E [B _]]]]. destruct r as [|d r']; [discriminate|]. cbn [map] in E. injection E as <- <-. cbn [length] in L.
    pose proof (lines_tail _ _ OR) as OR2.
    unfold eqn in NE |- *. rewrite !eqany_oneof in *. rewrite is_hash_spec in H.
    change (balanced (lvl + k) (map tk (t :: d :: r'))) with (balanced (lvl + k) (tk t :: tk d :: map tk r')).
    change (map tk (d :: r')) with (tk d :: map tk r').
    assert (EQ : forall j, balanced j (tk t :: tk d :: map tk r') =
      if oneof (tk d) ["if"; "ifdef"; "ifndef"] then balanced (S j) (map tk r')
      else if oneof (tk d) ["endif"] then match j with O => false | S j' => balanced j' (map tk r') end else balanced j (map tk r')).
    { intros j. change (balanced j (tk t :: tk d :: map tk r')) with (if hash (tk t) then
        (if oneof (tk d) ["if"; "ifdef"; "ifndef"] then balanced (S j) (tk d :: map tk r')
         else if oneof (tk d) ["endif"] then match j with O => false | S j' => balanced j' (tk d :: map tk r') end else balanced j (tk d :: map tk r')) else balanced j (tk d :: map tk r')).
      rewrite H. rewrite !balanced_in by exact B. destruct j; [reflexivity|]. rewrite balanced_in by exact B. reflexivity. }
    rewrite EQ. destruct (oneof (tk d) ["if"; "ifdef"; "ifndef"]) eqn:O.
    + apply (IH r' ltac:(lia) (S lvl)); assumption.
    + destruct lvl as [|lvl].
      * destruct (oneof (tk d) ["endif"; "else"; "elif"; "elifdef"; "elifndef"]) eqn:O2.
        { split; [|exact OK]. change (map tk (t :: d :: r')) with (tk t :: tk d :: map tk r'). cbn [Nat.add]. rewrite EQ. reflexivity. }
        { assert (NN : oneof (tk d) ["endif"] = false).
          { unfold oneof in *. cbn [existsb] in *. rewrite !orb_false_r in *. apply orb_false_iff in O2. apply O2. }
          rewrite NN. destruct (IH (d :: r') ltac:(cbn [length]; lia) 0%nat NE OR) as [I1 I2]. split; [|exact I2]. rewrite <- I1. change (map tk (d :: r')) with (tk d :: map tk r'). rewrite balanced_in by exact B. reflexivity. }
      * assert (EO : equal d "endif" = oneof (tk d) ["endif"]) by (unfold oneof; cbn [existsb]; rewrite orb_false_r; reflexivity).
        rewrite EO in *. destruct (oneof (tk d) ["endif"]).
        { cbn [Nat.add]. apply (IH r' ltac:(lia) lvl); assumption. }
        { destruct (IH (d :: r') ltac:(cbn [length]; lia) (S lvl) NE OR) as [I1 I2]. split; [|exact I2]. rewrite <- I1. change (map tk (d :: r')) with (tk d :: map tk r'). rewrite balanced_in by exact B. reflexivity. }
  - change (balanced (lvl + k) (map tk (t :: r))) with (balanced (lvl + k) (tk t :: map tk r)). cbn [balanced]. rewrite is_hash_spec in H. rewrite H. apply (IH r ltac:(lia) lvl); assumption.
Qed.
Lemma balanced_app c : forall l k j, lines_ok l = true -> balanced j l = true -> balanced (j + k) (l ++ c) = balanced k c.
Proof.
  induction l as [|h r IH]; intros k j OK B.
  - cbn [balanced] in B. apply Nat.eqb_eq in B. subst j. reflexivity.
  - pose proof (lines_tail _ _ OK) as OR. cbn [app balanced] in *. destruct (hash h) eqn:H.
    + destruct (lines_hash _ _ OK H) as [d [r2 [-> _]]]. cbn [app] in *. destruct (oneof d ["if"; "ifdef"; "ifndef"]).
      * change (S (j + k)) with (S j + k)%nat. apply (IH k (S j)); assumption.
      * destruct (oneof d ["endif"]); [|apply IH; assumption]. destruct j as [|j]; [discriminate|]. cbn [Nat.add]. apply IH; assumption.
    + apply IH; assumption.
Qed.
Lemma lines_app c : forall l, lines_ok l = true -> lines_ok c = true -> lines_ok (l ++ c) = true.
Proof.
  induction l as [|h r IH]; intros H1 H2; [exact H2|]. pose proof (lines_tail _ _ H1) as HT. cbn [app lines_ok]. rewrite (IH HT H2), andb_true_r.
  cbn [lines_ok] in H1. rewrite HT, andb_true_r in H1. destruct (hash h); [|reflexivity]. destruct r as [|d r2]; [discriminate|]. cbn [app].
  apply andb_prop in H1. destruct H1 as [H0 H1]. rewrite H0. cbn [andb]. destruct (oneof _ _); [|reflexivity]. destruct r2; [discriminate|exact H1].
Qed.
Lemma mark_guard_tk l : map tk (mark_guard l) = map tk l.
Proof. unfold mark_guard. destruct (guard_shape l); [|reflexivity]. destruct l as [|h [|d r]]; try reflexivity. cbn [map]. rewrite sgl_tk. reflexivity. Qed.

Section Balance.
Variable e : env.
Hypothesis Hf : forall p l, files e p = Ok l -> lines_ok l = true /\ balanced 0 l = true.
Lemma run_end f st st' : run e f [] st = Ok st' -> st' = st.
Proof. destruct f; [discriminate|]. cbn [run]. congruence. Qed.

Lemma ok_pair {A B} (a c : A) (b d : B) : Ok (a, b) = Ok (c, d) -> c = a /\ d = b.
Proof. intros H. injection H as -> ->. auto. Qed.
Lemma directives_balanced h l st st2 l2 : lines_ok (tk h :: map tk l) = true -> hash (tk h) = true -> directives e h l st = Ok (st2, l2) ->
  (l2 = [] /\ conds st2 <> []) \/
  lines_ok (map tk l2) = true /\ balanced (length (conds st2)) (map tk l2) = balanced (length (conds st)) (tk h :: map tk l).
Proof.
  intros OK H D. destruct (lines_hash _ _ OK H) as [d0 [r0 [E [B OP]]]]. destruct l as [|d r]; [discriminate|]. cbn [map] in E. injection E as <- <-.
  pose proof (lines_tail _ _ OK) as OR. cbn [map] in OR. pose proof (lines_tail _ _ OR) as OR2.
  assert (EQ : forall j, balanced j (tk h :: map tk (d :: r)) =
      if oneof (tk d) ["if"; "ifdef"; "ifndef"] then balanced (S j) (map tk r)
      else if oneof (tk d) ["endif"] then match j with O => false | S j' => balanced j' (map tk r) end else balanced j (map tk r)).
  { intros j. change (balanced j (tk h :: map tk (d :: r))) with (if hash (tk h) then
        (if oneof (tk d) ["if"; "ifdef"; "ifndef"] then balanced (S j) (tk d :: map tk r)
         else if oneof (tk d) ["endif"] then match j with O => false | S j' => balanced j' (tk d :: map tk r) end else balanced j (tk d :: map tk r)) else balanced j (tk d :: map tk r)).
      rewrite H. rewrite !balanced_in by exact B. destruct j; [reflexivity|]. rewrite balanced_in by exact B. reflexivity. }
  rewrite EQ. clear EQ.
  assert (SK : forall s k c, conds s <> [] -> lines_ok (map tk c) = true -> balanced (length (conds s)) (map tk c) = k ->
    (skip_cond_incl 0 c = [] /\ conds s <> []) \/ lines_ok (map tk (skip_cond_incl 0 c)) = true /\ balanced (length (conds s)) (map tk (skip_cond_incl 0 c)) = k).
  { intros s k c N L K. destruct (skip_cond_incl 0 c) as [|x y] eqn:E; [left; auto|right]. rewrite <- E in *. destruct (skip_cond_balanced (length (conds s)) c 0) as [S1 S2]; [congruence|exact L|]. cbn [Nat.add] in S1. rewrite <- S1. auto. }
  assert (SN : (oneof (tk d) ["ifdef"; "ifndef"; "elifdef"; "elifndef"; "define"; "undef"] = true) -> forall tok, skip_line_next r = Ok tok -> lines_ok (map tk tok) = true /\ forall k, balanced k (map tk tok) = balanced k (map tk r)).
  { intros O tok T. destruct (OP O) as [n [r3 [E B3]]]. destruct r as [|n' r']; [discriminate|]. cbn [map] in E. injection E as <- <-. cbn [skip_line_next] in T. injection T as <-.
    split; [apply lines_skip_line; apply lines_tail in OR2; exact OR2|]. intros k. rewrite balanced_skip_line. symmetry. apply balanced_in. exact B3. }
  assert (EN : lines_ok (map tk (d :: r)) = true /\ forall k, balanced k (map tk (d :: r)) = balanced k (map tk r)).
  { split; [exact OR|]. intros k. apply balanced_in. exact B. }
  assert (LS : lines_ok (map tk (skip_line r)) = true) by (apply lines_skip_line; exact OR2).
  unfold directives in D. unfold oneof in *. cbn [existsb] in *. unfold equal in D.
  repeat match type of D with
  | (if String.eqb ?a ?b then _ else _) = _ => let TX := fresh "TX" in destruct (String.eqb_spec a b) as [TX|TX];
      [rewrite TX in *; cbn [String.eqb Ascii.eqb Bool.eqb orb] in *|]
  end.
  - (* include *) bnd D. apply ok_pair in D; destruct D as [-> ->]. right. unfold include_file in E0. destruct (existsb _ _); [injection E0 as <-; auto using balanced_skip_line|].
    destruct (match lookupn x (guards st) with Some g => _ | None => _ end); [injection E0 as <-; auto using balanced_skip_line|].
    destruct (files e x) as [fl| |] eqn:FL; cbn [bind] in E0; try discriminate. injection E0 as <-. destruct (Hf _ _ FL) as [F1 F2].
    rewrite map_app, mark_guard_tk, map_map. cbn [tk]. rewrite map_id. split; [apply lines_app; assumption|].
    pose proof (balanced_app (map tk (skip_line r)) fl (length (conds st)) 0 F1 F2) as BA. cbn [Nat.add] in BA. rewrite BA. apply balanced_skip_line.
  - (* define *) destruct r as [|n r2]; [discriminate|]. destruct (ident (tk n)); [|discriminate]. apply ok_pair in D; destruct D as [-> ->]. right. destruct (OP eq_refl) as [n2 [r3 [E B3]]]. injection E as <- <-.
    split; [apply lines_skip_line; apply lines_tail in OR2; exact OR2|]. cbn [set_macros conds map]. rewrite balanced_skip_line, balanced_in by exact B3. reflexivity.
  - destruct r as [|n r2]; [discriminate|]. destruct (ident (tk n)); [|discriminate]. apply ok_pair in D; destruct D as [-> ->]. right. destruct (OP eq_refl) as [n2 [r3 [E B3]]]. injection E as <- <-.
    split; [apply lines_skip_line; apply lines_tail in OR2; exact OR2|]. cbn [set_macros conds map]. rewrite balanced_skip_line, balanced_in by exact B3. reflexivity.
  - bnd D. apply ok_pair in D; destruct D as [-> ->]. destruct x; [right; split; [exact LS|apply balanced_skip_line]|]. apply SK; [discriminate|exact LS|apply balanced_skip_line].
  - bnd D. apply ok_pair in D; destruct D as [-> ->]. destruct (SN eq_refl _ eq_refl) as [N1 N2]. destruct (find_macro _ _); [right; split; [exact N1|apply N2]|]. apply SK; [discriminate|exact N1|apply N2].
  - bnd D. apply ok_pair in D; destruct D as [-> ->]. destruct (SN eq_refl _ eq_refl) as [N1 N2]. destruct (negb (find_macro _ _)); [right; split; [exact N1|apply N2]|]. apply SK; [discriminate|exact N1|apply N2].
  - unfold with_cond in D. destruct (conds st) as [|c cs]; [discriminate|]. destruct (is_else c); [discriminate|]. destruct (been_active c).
    + apply ok_pair in D; destruct D as [-> ->]. apply SK; [discriminate|apply EN|apply EN].
    + bnd D. destruct x; apply ok_pair in D; destruct D as [-> ->]; [right; split; [exact LS|apply balanced_skip_line]|]. apply SK; [discriminate|exact LS|apply balanced_skip_line].
  - unfold with_cond in D. destruct (conds st) as [|c cs]; [discriminate|]. destruct (is_else c); [discriminate|]. destruct (negb (been_active c) && _).
    + bnd D. apply ok_pair in D; destruct D as [-> ->]. destruct (SN eq_refl _ eq_refl) as [N1 N2]. right; split; [exact N1|apply N2].
    + apply ok_pair in D; destruct D as [-> ->]. apply SK; [discriminate|apply EN|apply EN].
  - unfold with_cond in D. destruct (conds st) as [|c cs]; [discriminate|]. destruct (is_else c); [discriminate|]. destruct (negb (been_active c) && _).
    + bnd D. apply ok_pair in D; destruct D as [-> ->]. destruct (SN eq_refl _ eq_refl) as [N1 N2]. right; split; [exact N1|apply N2].
    + apply ok_pair in D; destruct D as [-> ->]. apply SK; [discriminate|apply EN|apply EN].
  - unfold with_cond in D. destruct (conds st) as [|c cs]; [discriminate|]. destruct (is_else c); [discriminate|]. apply ok_pair in D; destruct D as [-> ->]. destruct (been_active c).
    + apply SK; [discriminate|exact LS|apply balanced_skip_line].
    + right; split; [exact LS|apply balanced_skip_line].
  - unfold with_cond in D. destruct (conds st) as [|c cs]; [discriminate|]. apply ok_pair in D; destruct D as [-> ->]. right; split; [exact LS|apply balanced_skip_line].
  - apply ok_pair in D; destruct D as [-> ->]. right.
    assert (C : conds (if eqn r "once" then mkpst (pmacros st) (conds st) (tfile d :: once st) (guards st) (out st) else st) = conds st) by (destruct (eqn r "once"); reflexivity).
    rewrite C. destruct (eqn r "once") eqn:O; [|split; [exact LS|apply balanced_skip_line]].
    destruct r as [|x r]; [discriminate|]. cbn [tl]. split; [apply lines_skip_line; apply lines_tail in OR2; exact OR2|]. rewrite balanced_skip_line.
    cbn [map balanced]. cbn [eqn] in O. apply String.eqb_eq in O. unfold hash. rewrite O. rewrite andb_false_r. reflexivity.
  - cbn [orb].
    match type of D with (if ?b then _ else _) = _ => destruct b end; [apply ok_pair in D; destruct D as [-> ->]; right; split; [exact LS|apply balanced_skip_line]|].
    match type of D with (if ?b then _ else _) = _ => destruct b end; [discriminate|]. unfold pbol in D. rewrite B in D. discriminate.
Qed.

Lemma run_balanced f : forall l st st', lines_ok (map tk l) = true -> run e f l st = Ok st' -> conds st' = [] -> balanced (length (conds st)) (map tk l) = true.
Proof.
  induction f as [|f IH]; intros l st st' OK H C; [discriminate|]. cbn [run] in H. destruct l as [|t r].
  - injection H as <-. rewrite C. reflexivity.
  - destruct (is_hash t) eqn:HT.
    + destruct (directives e t r st) as [[st2 l2]| |] eqn:D; cbn [bind fst snd] in H; try discriminate.
      destruct (directives_balanced _ _ _ _ _ OK HT D) as [[-> N]|[O2 B]].
      * apply run_end in H. subst st'. congruence.
      * cbn [map]. rewrite <- B. eapply IH; eassumption.
    + cbn [map balanced]. rewrite is_hash_spec in HT. rewrite HT. apply IH in H; [exact H|apply lines_tail in OK; exact OK|exact C].
Qed.
Theorem preprocess_balanced f l m st : lines_ok l = true -> preprocess e f l m = Ok st -> balanced 0 l = true.
Proof.
  intros OK H. unfold preprocess in H. bnd H. destruct (conds x) eqn:C; [|discriminate]. apply run_balanced in E; [|rewrite map_map; cbn [tk]; rewrite map_id; exact OK|exact C].
  rewrite map_map in E. cbn [tk conds length] in E. rewrite map_id in E. exact E.
Qed.
End Balance.
