(** C12: macro expansion. *)
From Coq Require Import Ascii String ZArith List Bool Lia Wellfounded.
From Verif Require Import Base PpSpec MacSpec MacModel.
Import ListNotations.
Local Open Scope string_scope.
Local Open Scope list_scope.

Ltac bnd H :=
  repeat match type of H with
  | bind ?o _ = Ok _ =>
      let E := fresh "E" in let x := fresh "x" in
      destruct o as [x| |] eqn:E; [cbn [bind] in H|discriminate H|discriminate H]
  end.

(** *** Parentheses *)
Definition txt (l : list mtok) : list string := map ttext l.
Definition wk (k : nat) (l : list mtok) := walk k (txt l).
Definition bal (l : list mtok) : Prop := forall k, wk k l = Some k.
Definition isp (t : mtok) : bool := eqt t "(" || eqt t ")".

Lemma wk_app l : forall k r, wk k (l ++ r) = match wk k l with Some j => wk j r | None => None end.
Proof.
  induction l as [|t l IH]; intros k r; [reflexivity|]. unfold wk, txt in *. cbn [app map walk].
  destruct (String.eqb (ttext t) "("); [apply IH|]. destruct (String.eqb (ttext t) ")"); [|apply IH]. destruct k; [reflexivity|apply IH].
Qed.
Lemma wk_plus l : forall k j d, wk k l = Some j -> wk (k + d) l = Some (j + d)%nat.
Proof.
  induction l as [|t l IH]; intros k j d H; unfold wk, txt in *; cbn [map walk] in *; [congruence|].
  destruct (String.eqb (ttext t) "("); [apply (IH (S k)); exact H|]. destruct (String.eqb (ttext t) ")"); [|apply IH; exact H]. destruct k; [discriminate|]. cbn [Nat.add]. apply IH; exact H.
Qed.
Lemma bal_intro l : wk 0 l = Some 0%nat -> bal l.
Proof. intros H k. apply (wk_plus _ _ _ k) in H. exact H. Qed.
Lemma bal_nil : bal [].
Proof. intros k. reflexivity. Qed.
Lemma bal_app a b : bal a -> bal b -> bal (a ++ b).
Proof. intros A B k. rewrite wk_app, A. apply B. Qed.
Lemma wk_cons k t l : wk k (t :: l) = if eqt t "(" then wk (S k) l else if eqt t ")" then match k with O => None | S k' => wk k' l end else wk k l.
Proof. reflexivity. Qed.
Lemma wk_np k t l : isp t = false -> wk k (t :: l) = wk k l.
Proof. unfold isp. intros H. apply orb_false_iff in H. destruct H as [H1 H2]. rewrite wk_cons, H1, H2. reflexivity. Qed.
Lemma bal_one t : isp t = false -> bal [t].
Proof. intros H k. rewrite wk_np by exact H. reflexivity. Qed.
Lemma wk_txt k a b : txt a = txt b -> wk k a = wk k b.
Proof. unfold wk. intros ->. reflexivity. Qed.
Lemma bal_txt a b : txt a = txt b -> bal a -> bal b.
Proof. intros E H k. rewrite <- (wk_txt k a b E). apply H. Qed.
Lemma bal_cancel a b : bal a -> bal (a ++ b) -> bal b.
Proof. intros A B k. specialize (B k). rewrite wk_app, A in B. exact B. Qed.
Lemma bal_group p a q : eqt p "(" = true -> eqt q ")" = true -> bal a -> bal (p :: a ++ [q]).
Proof.
  intros P Q A k. rewrite wk_cons, P, wk_app, A, wk_cons, Q.
  apply String.eqb_eq in Q. unfold eqt. rewrite Q. reflexivity.
Qed.

(** Reading a parenthesised group: the prefix before the closing parenthesis. *)
Definition lvl' (t : mtok) (lvl : nat) : nat := if eqt t "(" then S lvl else if eqt t ")" then pred lvl else lvl.
Lemma read_arg_one_spec rest : forall l lvl a r, read_arg_one rest lvl l = Ok (a, r) ->
  l = a ++ r /\ wk lvl a = Some 0%nat /\ exists t r', r = t :: r' /\ (eqt t ")" = true \/ rest = false /\ eqt t "," = true).
Proof.
  induction l as [|t l IH]; intros lvl a r H; [discriminate|]. cbn [read_arg_one] in H.
  destruct (Nat.eqb lvl 0 && (eqt t ")" || negb rest && eqt t ",")) eqn:E.
  - injection H as <- <-. apply andb_prop in E. destruct E as [E1 E2]. apply Nat.eqb_eq in E1. subst lvl. split; [reflexivity|]. split; [reflexivity|]. exists t, l. split; [reflexivity|].
    apply orb_prop in E2. destruct E2 as [E2|E2]; [auto|]. apply andb_prop in E2. destruct E2 as [E2 E3]. right. split; [destruct rest; auto; discriminate|exact E3].
  - bnd H. destruct x as [a' r']. injection H as <- <-. destruct (IH _ _ _ E0) as [-> [W T]]. split; [reflexivity|]. split; [|exact T].
    rewrite wk_cons. destruct (eqt t "("); [exact W|]. destruct (eqt t ")") eqn:C; [|exact W].
    destruct lvl; [|exact W]. cbn in E. discriminate.
Qed.
Lemma read_arg_bal rest l a r : read_arg_one rest 0 l = Ok (a, r) -> bal a.
Proof. intros H. apply read_arg_one_spec in H. apply bal_intro, H. Qed.
Lemma read_args_bal strict va : forall n first l args o, read_args strict va n first l = Ok (args, o) -> Forall bal args /\ length args = n /\ forall a, In a args -> (length a <= length l)%nat.
Proof.
  induction n as [|n IH]; intros first l args o H; cbn [read_args] in H.
  - destruct (eqh l ")"); [|discriminate]. injection H as <- <-. repeat split; [constructor|]. intros a [].
  - destruct (va && Nat.eqb n 0 && eqh l ")") eqn:V.
    + bnd H. destruct (eqh (snd x) ")"); [|discriminate]. injection H as <- <-. destruct x as [a r]. repeat split.
      * constructor; [eapply read_arg_bal; exact E|constructor].
      * apply andb_prop in V. destruct V as [V _]. apply andb_prop in V. destruct V as [_ V]. apply Nat.eqb_eq in V. subst. reflexivity.
      * intros b [<-|[]]. apply read_arg_one_spec in E. destruct E as [-> _]. rewrite app_length. cbn [fst]. lia.
    + bnd H. injection H as <- <-. destruct x0 as [a r], x1 as [args o']. cbn [fst snd] in *. destruct (IH _ _ _ _ E1) as [I1 [I2 I3]].
      pose proof (read_arg_bal _ _ _ _ E0) as B. apply read_arg_one_spec in E0. destruct E0 as [E0 _]. 
      assert (L : (length x <= length l)%nat).
      { destruct first; [injection E as ->; lia|]. destruct l as [|t r0]; [discriminate|]. destruct (eqt t ","); [|discriminate]. injection E as <-. cbn [length]. lia. }
      subst x. rewrite app_length in L. repeat split.
      * constructor; assumption.
      * cbn [length]. congruence.
      * intros b [<-|Hb]; [lia|]. apply I3 in Hb. lia.
Qed.

(** Lists that change the depth alike. *)
Definition weq (a b : list mtok) : Prop := forall k, wk k a = wk k b.
Lemma weq_refl a : weq a a.
Proof. intros k. reflexivity. Qed.
Lemma weq_trans a b c : weq a b -> weq b c -> weq a c.
Proof. intros H1 H2 k. rewrite H1. apply H2. Qed.
Lemma weq_sym a b : weq a b -> weq b a.
Proof. intros H k. symmetry. apply H. Qed.
Lemma weq_app a b c d : weq a b -> weq c d -> weq (a ++ c) (b ++ d).
Proof. intros H1 H2 k. rewrite !wk_app, H1. destruct (wk k b); [apply H2|reflexivity]. Qed.
Lemma weq_bal a b : bal a -> bal b -> weq a b.
Proof. intros A B k. rewrite A, B. reflexivity. Qed.
Lemma weq_txt a b : txt a = txt b -> weq a b.
Proof. intros H k. apply wk_txt, H. Qed.
Lemma bal_weq a b : weq a b -> bal a -> bal b.
Proof. intros H A k. rewrite <- H. apply A. Qed.
Lemma bal_weq_nil a : bal a -> weq a [].
Proof. intros A k. apply A. Qed.

Definition paste_ok (paste : mtok -> mtok -> outcome mtok) : Prop :=
  forall a b t, paste a b = Ok t -> isp a = false /\ isp b = false /\ isp t = false.

Lemma eqt_np t s : eqt t s = true -> s <> "(" -> s <> ")" -> isp t = false.
Proof. unfold isp, eqt. intros H N1 N2. apply String.eqb_eq in H. rewrite H. rewrite (proj2 (String.eqb_neq _ _) N1), (proj2 (String.eqb_neq _ _) N2). reflexivity. Qed.
Lemma txt_align_first x t : txt (align_first x t) = txt x.
Proof. destruct x; reflexivity. Qed.
Lemma isp_str t l : isp (stringize t l) = false.
Proof. reflexivity. Qed.

Lemma id_np t : is_id t = true -> mtext t <> "(" /\ mtext t <> ")" -> isp t = false.
Proof. unfold is_id, isp, eqt, ttext. destruct (mkind t); try discriminate. intros _ [N1 N2]. rewrite (proj2 (String.eqb_neq _ _) N1), (proj2 (String.eqb_neq _ _) N2). reflexivity. Qed.
Section SubstBal.
Variable paste : mtok -> mtok -> outcome mtok.
Hypothesis Hp : paste_ok paste.
Variable ea : list mtok -> outcome (list mtok).
Variable c : ctx.
Hypothesis Hargs : Forall bal (cargs c).
Hypothesis Hpar : forall s, In s (mparams (cmac c)) -> s <> "(" /\ s <> ")".
Hypothesis Hea : forall a x, bal a -> ea a = Ok x -> bal x.

Lemma index_in s l i : index s l = Some i -> In s l.
Proof.
  revert i. induction l as [|x l IH]; intros i H; [discriminate|]. cbn [index] in H. destruct (String.eqb_spec x s); [left; assumption|].
  destruct (index s l); [|discriminate]. right. eapply IH. reflexivity.
Qed.
Lemma nth_bal i : bal (nth i (cargs c) []).
Proof. destruct (nth_in_or_default i (cargs c) []) as [H| ->]; [|apply bal_nil]. rewrite Forall_forall in Hargs. apply Hargs. exact H. Qed.
Lemma find_arg_spec sub l raw ex rest : (forall a x, bal a -> sub a = Ok x -> bal x) ->
  find_arg ea c sub l = Ok (Some (raw, ex, rest)) -> exists g, l = g ++ rest /\ g <> [] /\ bal g /\ bal raw /\ forall x, ex = Ok x -> bal x.
Proof.
  intros Hs H. destruct l as [|t r]; [discriminate|]. cbn [find_arg] in H. destruct (is_id t) eqn:ID; [|discriminate].
  destruct (index (mtext t) (mparams (cmac c))) as [i|] eqn:I1.
  - injection H as <- <- <-. exists [t]. repeat split; try discriminate.
    + apply bal_one, id_np; [exact ID|]. apply index_in in I1. apply Hpar, I1.
    + apply nth_bal.
    + intros x. apply Hea, nth_bal.
  - destruct (eqt t "__VA_OPT__" && eqh r "(") eqn:V; [|discriminate]. apply andb_prop in V. destruct V as [V1 V2].
    destruct r as [|p r]; [discriminate|]. cbn [eqh tl] in *. bnd H. injection H as <- <- <-. destruct x as [a r2]. cbn [fst snd] in *.
    pose proof (read_arg_bal _ _ _ _ E) as B. destruct (read_arg_one_spec _ _ _ _ _ E) as [-> [_ [q [r3 [-> [Q|[Q _]]]]]]]; [|discriminate]. cbn [tl].
    exists (t :: p :: a ++ [q]). repeat split; try discriminate.
    + cbn [app]. rewrite <- app_assoc. reflexivity.
    + change (bal ([t] ++ p :: a ++ [q])). apply bal_app; [apply bal_one; eapply eqt_np; [exact V1|discriminate|discriminate]|apply bal_group; assumption].
    + destruct x0; [|injection E1 as <-; apply bal_nil]. eapply Hs; [|exact E1]. exact B.
    + intros x H. injection H as <-. destruct x0; [|injection E1 as <-; apply bal_nil]. eapply Hs; [|exact E1]. exact B.
Qed.
Lemma weq_drop g a b : bal g -> weq (a ++ g ++ b) (a ++ b).
Proof. intros B. apply weq_app; [apply weq_refl|]. intros k. rewrite wk_app, B. reflexivity. Qed.
Lemma subst_weq : forall n acc l r, subst paste ea c n acc l = Ok r -> weq r (rev acc ++ l).
Proof.
  induction n as [|n IH]; intros acc l r H; [discriminate|]. cbn [subst] in H.
  assert (Hs : forall a x, bal a -> subst paste ea c n [] a = Ok x -> bal x).
  { intros a x B E. apply IH in E. cbn [rev app] in E. eapply bal_weq; [apply weq_sym, E|exact B]. }
  destruct l as [|t r0]; [injection H as <-; rewrite app_nil_r; apply weq_refl|].
  destruct (eqt t "#") eqn:T1.
  { bnd H. destruct x as [[[raw ex] rest]|]; [|discriminate]. apply IH in H. eapply weq_trans; [exact H|]. destruct (find_arg_spec _ _ _ _ _ Hs E) as [g [-> [_ [B _]]]].
    cbn [rev]. rewrite <- app_assoc. apply weq_app; [apply weq_refl|]. intros k. cbn [app]. rewrite (wk_np _ (stringize t raw)) by apply isp_str.
    rewrite wk_np by (eapply eqt_np; [exact T1|discriminate|discriminate]). rewrite wk_app, B. reflexivity. }
  destruct (eqt t "," && eqh r0 "##" && mva (cmac c) && is_va_param c (tl r0)) eqn:T2.
  { apply andb_prop in T2. destruct T2 as [T2 T5]. apply andb_prop in T2. destruct T2 as [T2 _]. apply andb_prop in T2. destruct T2 as [T2 T3].
    assert (Nt : isp t = false) by (eapply eqt_np; [exact T2|discriminate|discriminate]). destruct r0 as [|u r0]; [discriminate|]. cbn [eqh tl] in *.
    assert (Nu : isp u = false) by (eapply eqt_np; [exact T3|discriminate|discriminate]). destruct (omit c).
    - destruct r0 as [|v r0]; [discriminate|]. cbn [tl] in H. cbn [is_va_param] in T5. apply andb_prop in T5. destruct T5 as [T4 T5]. destruct (index _ _) eqn:IX; [|discriminate]. apply index_in in IX.
      assert (Nv : isp v = false) by (apply id_np; [exact T4|apply Hpar, IX]).
      apply IH in H. eapply weq_trans; [exact H|]. apply weq_app; [apply weq_refl|]. intros k. rewrite !wk_np by assumption. reflexivity.
    - apply IH in H. eapply weq_trans; [exact H|]. cbn [rev]. rewrite <- app_assoc. apply weq_app; [apply weq_refl|]. intros k. cbn [app]. rewrite !wk_np by assumption. reflexivity. }
  destruct (eqt t "##") eqn:T3.
  { assert (Nt : isp t = false) by (eapply eqt_np; [exact T3|discriminate|discriminate]). destruct acc as [|cur acc]; [discriminate|]. destruct r0 as [|u r0]; [discriminate|].
    destruct (is_pmark cur).
    - apply IH in H. eapply weq_trans; [exact H|]. apply weq_app; [apply weq_refl|]. intros k. rewrite (wk_np k t) by exact Nt. reflexivity.
    - bnd H. destruct x as [[[raw ex] rest]|].
      + destruct (find_arg_spec _ _ _ _ _ Hs E) as [g [-> [_ [B [Br _]]]]]. destruct raw as [|x xs].
        * apply IH in H. eapply weq_trans; [exact H|]. apply weq_app; [apply weq_refl|]. intros k. rewrite wk_np by exact Nt. rewrite wk_app, B. reflexivity.
        * bnd H. apply IH in H. eapply weq_trans; [exact H|]. rewrite rev_app_distr, rev_involutive. cbn [rev]. rewrite <- !app_assoc. apply weq_app; [apply weq_refl|].
          change ([x0] ++ xs ++ rest) with (x0 :: (xs ++ rest)). change ([cur] ++ t :: g ++ rest) with (cur :: t :: g ++ rest).
          assert (BX : weq (cur :: x :: xs) (x0 :: xs)).
          { destruct (is_pmark x) eqn:PM; [injection E0 as <-|destruct (Hp _ _ _ E0) as [A1 [A2 A3]]; intros k; rewrite !wk_np by assumption; reflexivity].
            intros k. assert (isp x = false) by (unfold isp, eqt, ttext; unfold is_pmark in PM; destruct (mkind x); [discriminate..|reflexivity]).
            rewrite !(wk_cons _ cur). rewrite (wk_np (S k) x) by assumption. destruct (eqt cur "("); [reflexivity|]. destruct (eqt cur ")"); [destruct k; [reflexivity|rewrite (wk_np k x) by assumption; reflexivity]|rewrite (wk_np k x) by assumption; reflexivity]. }
          intros k. change (x0 :: xs ++ rest) with ((x0 :: xs) ++ rest). rewrite wk_app, <- BX. rewrite !(wk_cons k cur).
          assert (forall j, match wk j (x :: xs) with Some j => wk j rest | None => None end = wk j (t :: g ++ rest)).
          { intros j. rewrite Br, wk_np, wk_app, B by exact Nt. reflexivity. }
          destruct (eqt cur "("); [apply H0|]. destruct (eqt cur ")"); [destruct k; [reflexivity|apply H0]|apply H0].
      + bnd H. apply IH in H. destruct (Hp _ _ _ E0) as [A1 [A2 A3]]. eapply weq_trans; [exact H|]. cbn [rev]. rewrite <- !app_assoc. apply weq_app; [apply weq_refl|].
        intros k. cbn [app]. rewrite !wk_np by assumption. reflexivity. }
  bnd H. destruct x as [[[raw ex] rest]|].
  - destruct (find_arg_spec _ _ _ _ _ Hs E) as [g [-> [_ [B [Br Bx]]]]]. bnd H.
    assert (BX : bal x) by (destruct (eqh rest "##"); [injection E0 as <-; exact Br|apply Bx; exact E0]).
    assert (GX : weq (rev acc ++ x ++ rest) (rev acc ++ g ++ rest)) by (eapply weq_trans; [apply weq_drop; exact BX|apply weq_sym, weq_drop; exact B]).
    destruct x as [|x xs].
    + apply IH in H. eapply weq_trans; [exact H|]. eapply weq_trans; [|exact GX]. cbn [rev app]. rewrite <- app_assoc. apply weq_app; [apply weq_refl|]. intros k. reflexivity.
    + apply IH in H. eapply weq_trans; [exact H|]. eapply weq_trans; [|exact GX]. rewrite rev_app_distr, rev_involutive, <- app_assoc. apply weq_app; [apply weq_refl|]. apply weq_app; [|apply weq_refl].
      apply weq_txt, txt_align_first.
  - destruct (eqt t "__VA_TAIL__" && eqh r0 "("); [discriminate|]. apply IH in H. cbn [rev] in H. rewrite <- app_assoc in H. exact H.
Qed.
End SubstBal.

(** More fuel does not change a result. *)
Definition le_o {A} (a b : outcome A) : Prop := a <> UB -> b = a.
Lemma le_o_refl {A} (a : outcome A) : le_o a a.
Proof. intros _. reflexivity. Qed.
Lemma le_o_bind {A B} (a b : outcome A) (k k' : A -> outcome B) : le_o a b -> (forall x, le_o (k x) (k' x)) -> le_o (bind a k) (bind b k').
Proof. intros H G N. destruct a as [x| |]; [|exfalso; apply N; reflexivity|]; rewrite H by discriminate; cbn [bind] in *; [apply G; exact N|reflexivity]. Qed.
Section SubstMono.
Variable paste : mtok -> mtok -> outcome mtok.
Variables ea ea' : list mtok -> outcome (list mtok).
Variable c : ctx.
Hypothesis Hea : forall a, le_o (ea a) (ea' a).
Definition arel (x y : option (list mtok * outcome (list mtok) * list mtok)) : Prop :=
  match x, y with
  | None, None => True
  | Some (r, e, s), Some (r', e', s') => r' = r /\ s' = s /\ le_o e e'
  | _, _ => False
  end.
Definition le_a (x y : outcome (option (list mtok * outcome (list mtok) * list mtok))) : Prop :=
  match x with UB => True | Abort => y = Abort | Ok a => exists b, y = Ok b /\ arel a b end.
Lemma va_mono : le_o (has_non_empty_va ea c) (has_non_empty_va ea' c).
Proof. unfold has_non_empty_va. destruct (mva (cmac c)); [|apply le_o_refl]. apply le_o_bind; [apply Hea|]. intros x. apply le_o_refl. Qed.
Lemma find_arg_mono sub sub' l : (forall a, le_o (sub a) (sub' a)) -> le_a (find_arg ea c sub l) (find_arg ea' c sub' l).
Proof.
  intros Hs. destruct l as [|t r]; [exists None; split; [reflexivity|exact Logic.I]|]. cbn [find_arg]. destruct (is_id t); [|exists None; split; [reflexivity|exact Logic.I]].
  destruct (index (mtext t) (mparams (cmac c))); [eexists; split; [reflexivity|cbn [arel]; auto]|].
  destruct (eqt t "__VA_OPT__" && eqh r "("); [|exists None; split; [reflexivity|exact Logic.I]].
  destruct (read_arg_one true 0 (tl r)) as [q| |]; cbn [bind le_a]; auto.
  pose proof va_mono as V. unfold le_o in V. destruct (has_non_empty_va ea c) as [b| |]; cbn [bind le_a]; auto; rewrite V by discriminate; cbn [bind]; [|reflexivity].
  destruct b.
  - specialize (Hs (fst q)). unfold le_o in Hs. destruct (sub (fst q)) as [x| |]; cbn [bind le_a]; auto; rewrite Hs by discriminate; cbn [bind]; [|reflexivity].
    eexists; split; [reflexivity|]. cbn [arel]. auto using le_o_refl.
  - cbn [bind]. eexists; split; [reflexivity|]. cbn [arel]. auto using le_o_refl.
Qed.
Lemma le_a_bind (x y : outcome (option (list mtok * outcome (list mtok) * list mtok))) (k k' : option (list mtok * outcome (list mtok) * list mtok) -> outcome (list mtok)) :
  le_a x y -> (forall a b, arel a b -> le_o (k a) (k' b)) -> le_o (bind x k) (bind y k').
Proof.
  intros H G N. destruct x as [a| |]; cbn [le_a bind] in *; [|congruence|subst y; reflexivity]. destruct H as [b [-> R1]]. cbn [bind]. apply G; assumption.
Qed.
Lemma subst_mono : forall n acc l, le_o (subst paste ea c n acc l) (subst paste ea' c n acc l).
Proof.
  induction n as [|n IH]; intros acc l; [apply le_o_refl|]. cbn [subst]. destruct l as [|t r]; [apply le_o_refl|].
  assert (HF : forall l, le_a (find_arg ea c (subst paste ea c n []) l) (find_arg ea' c (subst paste ea' c n []) l)) by (intros l; apply find_arg_mono; intros a; apply IH).
  destruct (eqt t "#").
  { apply le_a_bind; [apply HF|]. intros [[[x e] y]|] [[[x' e'] y']|]; cbn [arel]; try contradiction; [|intros; apply le_o_refl]. intros [-> [-> _]]. apply IH. }
  destruct (eqt t "," && eqh r "##" && mva (cmac c) && is_va_param c (tl r)); [destruct (omit c); apply IH|].
  destruct (eqt t "##").
  { destruct acc as [|cur acc]; [apply le_o_refl|]. destruct r as [|u r]; [apply le_o_refl|]. destruct (is_pmark cur); [apply IH|].
    apply le_a_bind; [apply HF|]. intros [[[x e] y]|] [[[x' e'] y']|]; cbn [arel]; try contradiction.
    - intros [-> [-> _]]. destruct x; [apply IH|]. apply le_o_bind; [apply le_o_refl|]. intros z. apply IH.
    - intros _. apply le_o_bind; [apply le_o_refl|]. intros z. apply IH. }
  apply le_a_bind; [apply HF|]. intros [[[x e] y]|] [[[x' e'] y']|]; cbn [arel]; try contradiction.
  - intros [-> [-> He]]. apply le_o_bind; [destruct (eqh y "##"); [apply le_o_refl|exact He]|]. intros z. destruct z; apply IH.
  - intros _. destruct (eqt t "__VA_TAIL__" && eqh r "("); [apply le_o_refl|apply IH].
Qed.
End SubstMono.

(** Substitution terminates when the expansion of the arguments does. *)
Section SubstTotal.
Variable paste : mtok -> mtok -> outcome mtok.
Hypothesis Hpt : forall a b, paste a b <> UB.
Variable ea : list mtok -> outcome (list mtok).
Variable c : ctx.
Hypothesis Hea : forall a, In a ([] :: cargs c) -> ea a <> UB.
Lemma nth_args i : In (nth i (cargs c) []) ([] :: cargs c).
Proof. destruct (nth_in_or_default i (cargs c) []) as [H|H]; [right; exact H|left; symmetry; exact H]. Qed.
Lemma last_args : In (last (cargs c) []) ([] :: cargs c).
Proof.
  assert (G : forall l : list (list mtok), In (last l []) ([] :: l)).
  { induction l as [|a l IH]; [left; reflexivity|]. destruct l as [|b l]; [right; left; reflexivity|].
    change (last (a :: b :: l) []) with (last (b :: l) []). cbn [In] in *. destruct IH as [IH|IH]; auto. }
  apply G.
Qed.
Lemma read_arg_total rest : forall l lvl, read_arg_one rest lvl l <> UB.
Proof. induction l as [|t l IH]; intros lvl; [discriminate|]. cbn [read_arg_one]. destruct (_ && _); [discriminate|]. specialize (IH (if eqt t "(" then S lvl else if eqt t ")" then pred lvl else lvl)). destruct (read_arg_one rest _ l); cbn [bind]; congruence. Qed.
Lemma find_arg_total sub l : (forall a, (length a < length l)%nat -> sub a <> UB) ->
  find_arg ea c sub l <> UB /\ forall raw ex rest, find_arg ea c sub l = Ok (Some (raw, ex, rest)) -> ex <> UB /\ (length rest < length l)%nat.
Proof.
  intros Hs. destruct l as [|t r]; [split; [discriminate|intros ? ? ? H; discriminate]|]. cbn [find_arg]. destruct (is_id t); [|split; [discriminate|intros ? ? ? H; discriminate]].
  destruct (index (mtext t) (mparams (cmac c))).
  - split; [discriminate|]. intros raw ex rest H. injection H as <- <- <-. split; [apply Hea, nth_args|cbn [length]; lia].
  - destruct (eqt t "__VA_OPT__" && eqh r "("); [|split; [discriminate|intros ? ? ? H; discriminate]].
    pose proof (read_arg_total true (tl r) 0) as RT. destruct (read_arg_one true 0 (tl r)) as [[a r2]| |] eqn:RA; [|congruence|split; [discriminate|intros ? ? ? H; discriminate]]. cbn [bind fst snd].
    apply read_arg_one_spec in RA. destruct RA as [RA _]. assert (LR : (length (tl r) <= length r)%nat) by (destruct r; cbn [tl length]; lia). rewrite RA, app_length in LR.
    assert (HV : has_non_empty_va ea c <> UB). { unfold has_non_empty_va. destruct (mva (cmac c)); [|discriminate]. pose proof (Hea _ last_args) as G. destruct (ea (last (cargs c) [])); cbn [bind]; congruence. }
    destruct (has_non_empty_va ea c) as [b| |]; cbn [bind]; [|congruence|split; [discriminate|intros ? ? ? H; discriminate]].
    assert (HX : (if b then sub a else Ok []) <> UB). { destruct b; [|discriminate]. apply Hs. cbn [length]. lia. }
    destruct (if b then sub a else Ok []) as [x| |]; cbn [bind]; [|congruence|split; [discriminate|intros ? ? ? H; discriminate]].
    split; [discriminate|]. intros raw ex rest H. injection H as <- <- <-. split; [discriminate|]. cbn [length]. destruct r2; cbn [tl length] in *; lia.
Qed.
Lemma subst_total : forall n acc l, (length l < n)%nat -> subst paste ea c n acc l <> UB.
Proof.
  induction n as [|n IH]; intros acc l L; [lia|]. cbn [subst]. destruct l as [|t r]; [discriminate|]. cbn [length] in L.
  assert (HF : forall l, (length l <= S (length r))%nat -> find_arg ea c (subst paste ea c n []) l <> UB /\ forall raw ex rest, find_arg ea c (subst paste ea c n []) l = Ok (Some (raw, ex, rest)) -> ex <> UB /\ (length rest < length l)%nat).
  { intros l Hl. apply find_arg_total. intros a La. apply IH. lia. }
  assert (TL : forall l : list mtok, (length (tl l) <= length l)%nat) by (intros l; destruct l; cbn [tl length]; lia).
  destruct (eqt t "#").
  { destruct (HF r ltac:(lia)) as [F1 F2]. destruct (find_arg ea c _ r) as [[[[raw ex] rest]|]| |]; cbn [bind]; try congruence. destruct (F2 _ _ _ eq_refl). apply IH. lia. }
  destruct (eqt t "," && eqh r "##" && mva (cmac c) && is_va_param c (tl r)).
  { pose proof (TL r). pose proof (TL (tl r)). destruct (omit c); apply IH; lia. }
  destruct (eqt t "##").
  { destruct acc as [|cur acc]; [discriminate|]. destruct r as [|u r]; [discriminate|]. destruct (is_pmark cur); [apply IH; cbn [length] in *; lia|].
    destruct (HF (u :: r) ltac:(lia)) as [F1 F2]. destruct (find_arg ea c _ (u :: r)) as [[[[raw ex] rest]|]| |]; cbn [bind]; try congruence.
    - destruct (F2 _ _ _ eq_refl). destruct raw as [|x xs]; [apply IH; cbn [length] in *; lia|]. destruct (is_pmark x); cbn [bind]; [apply IH; cbn [length] in *; lia|].
      pose proof (Hpt cur x) as P. destruct (paste cur x); cbn [bind]; try congruence. apply IH; cbn [length] in *; lia.
    - pose proof (Hpt cur u) as P. destruct (paste cur u); cbn [bind]; try congruence. apply IH; cbn [length] in *; lia. }
  destruct (HF (t :: r) ltac:(cbn [length]; lia)) as [F1 F2]. destruct (find_arg ea c _ (t :: r)) as [[[[raw ex] rest]|]| |]; cbn [bind]; try congruence.
  - destruct (F2 _ _ _ eq_refl) as [E1 E2]. cbn [length] in E2. destruct (eqh rest "##"); cbn [bind].
    + destruct raw; apply IH; lia.
    + destruct ex as [x| |]; cbn [bind]; try congruence. destruct x; apply IH; lia.
  - destruct (eqt t "__VA_TAIL__" && eqh r "("); [discriminate|]. apply IH; lia.
Qed.
End SubstTotal.

(** The macros of the table: names and parameters are not parentheses, bodies are balanced. *)
Definition mac_ok (s : string) (m : mac) : Prop :=
  s <> "(" /\ s <> ")" /\ bal (mbody m) /\ forall p, In p (mparams m) -> p <> "(" /\ p <> ")".
Definition tbl_ok (tbl : mtable) : Prop := forall s m, lookup s tbl = Some m -> mac_ok s m.

Section Exp.
Variable paste : mtok -> mtok -> outcome mtok.
Hypothesis Hp : paste_ok paste.
Variable strict : bool.
Variable tbl : mtable.
Hypothesis Ht : tbl_ok tbl.
Notation find_mac := (find_mac tbl).
Notation prepare := (prepare tbl).
Notation expand := (expand paste strict tbl).

Lemma find_mac_ok t m : find_mac t = Some m -> isp t = false /\ bal (mbody m) /\ (forall p, In p (mparams m) -> p <> "(" /\ p <> ")") /\ lookup (mtext t) tbl = Some m.
Proof.
  unfold MacModel.find_mac. destruct (is_id t) eqn:ID; [|discriminate]. intros H. destruct (Ht _ _ H) as [N1 [N2 [B P]]]. split; [apply id_np; auto|]. auto.
Qed.
Lemma insert_objlike_weq : forall l acc r, insert_objlike paste acc l = Ok r -> weq r (rev acc ++ l).
Proof.
  intros l. remember (length l) as n eqn:L. assert (L' : (length l <= n)%nat) by lia. clear L. revert l L'.
  induction n as [|n IH]; intros l L acc r H; (destruct l as [|t l]; [cbn in H; injection H as <-; rewrite app_nil_r; apply weq_refl|]); cbn [length] in L; [lia|].
  cbn [insert_objlike] in H. destruct (eqt t "##") eqn:T.
  - destruct acc as [|cur acc]; [discriminate|]. destruct l as [|u l]; [discriminate|]. bnd H. apply IH in H; [|cbn [length] in L; lia]. destruct (Hp _ _ _ E) as [A1 [A2 A3]].
    eapply weq_trans; [exact H|]. cbn [rev]. rewrite <- !app_assoc. apply weq_app; [apply weq_refl|]. intros k. cbn [app].
    assert (isp t = false) by (eapply eqt_np; [exact T|discriminate|discriminate]). rewrite !wk_np by assumption. reflexivity.
  - apply IH in H; [|lia]. cbn [rev] in H. rewrite <- app_assoc in H. exact H.
Qed.
Definition paintif (outer : list string) own t := match find_mac t with Some _ => if locked outer own (mtext t) then paint t else t | None => t end.
Lemma ttext_paintif outer own t : ttext (paintif outer own t) = ttext t.
Proof. unfold paintif. destruct (find_mac t); [|reflexivity]. destruct (locked _ _ _); reflexivity. Qed.
Lemma prepare_cons outer own lvl t r : prepare outer own lvl (t :: r) =
  let own' := pop own (length (t :: r)) in
  if Nat.eqb lvl 0 && eqt t ")" then Ok (own', [paintif outer own' t], r)
  else do q <- prepare outer own' (lvl' t lvl) r; let '(o, a, rest) := q in Ok (o, paintif outer own' t :: a, rest).
Proof. reflexivity. Qed.
Lemma prepare_spec outer : forall l own lvl o a r, prepare outer own lvl l = Ok (o, a, r) ->
  exists l0 q, l = l0 ++ q :: r /\ eqt q ")" = true /\ wk lvl l0 = Some 0%nat /\ txt a = txt (l0 ++ [q]).
Proof.
  induction l as [|t l IH]; intros own lvl o a r H; [discriminate|]. rewrite prepare_cons in H. cbv zeta in H.
  destruct (Nat.eqb lvl 0 && eqt t ")") eqn:E.
  - injection H as <- <- <-. apply andb_prop in E. destruct E as [E1 E2]. apply Nat.eqb_eq in E1. subst. exists [], t. repeat split; auto. unfold txt. cbn [map app]. rewrite ttext_paintif. reflexivity.
  - bnd H. destruct x as [[o' a'] r']. injection H as <- <- <-. destruct (IH _ _ _ _ _ E0) as [l0 [q [-> [Q [W T]]]]]. exists (t :: l0), q. repeat split; auto.
    + rewrite wk_cons. unfold lvl' in W. destruct (eqt t "("); [exact W|]. destruct (eqt t ")"); [|exact W]. destruct lvl; [discriminate|exact W].
    + unfold txt in *. cbn [map app]. rewrite ttext_paintif, T. reflexivity.
Qed.
Lemma weq_filter b : weq (filter (fun x => negb (is_pmark x)) b) b.
Proof.
  induction b as [|x b IH]; [apply weq_refl|]. cbn [filter]. unfold is_pmark at 1. destruct (mkind x) eqn:K; cbn [negb]; try (apply (weq_app [x] [x]); [apply weq_refl|exact IH]).
  intros k. rewrite wk_np; [apply IH|]. unfold isp, eqt, ttext. rewrite K. reflexivity.
Qed.
Definition after (f : nat) outer (t : mtok) b own2 r2 :=
  match b with
  | [] => expand f outer (pop own2 (length r2)) (or_space r2 t)
  | x :: b' => expand f outer ((mtext t, length r2) :: own2) (align x t :: b' ++ r2)
  end.
Lemma expand_cons f outer own t r : expand (S f) outer own (t :: r) =
  let emit u := do o <- expand f outer (pop own (length r)) r; Ok (u :: o) in
  if noexp t then emit t
  else match find_mac t with
  | None => emit t
  | Some m =>
      if locked outer own (mtext t) then emit (paint t)
      else if mobj m then do b <- insert_objlike paste [] (mbody m); after f outer t b own r
      else if eqh r "(" then
        do q <- prepare outer (pop own (length r)) 0 (tl r);
        let '(own2, pre, r3) := q in
        do a <- read_args strict (mva m) (length (mparams m)) true pre;
        do b <- subst paste (expand f (names own2 ++ outer) []) (mkctx m (fst a) (snd a)) (S (length (mbody m))) [] (mbody m);
        after f outer t (filter (fun x => negb (is_pmark x)) b) own2 r3
      else emit t
  end.
Proof. reflexivity. Qed.
Lemma expand_weq : forall f outer own l o, expand f outer own l = Ok o -> weq o l.
Proof.
  induction f as [|f IH]; intros outer own l o H; [discriminate|]. destruct l as [|t r]; [injection H as <-; apply weq_refl|].
  rewrite expand_cons in H. cbv zeta in H.
  assert (EM : forall u, ttext u = ttext t -> (do o <- expand f outer (pop own (length r)) r; Ok (u :: o)) = Ok o -> weq o (t :: r)).
  { intros u E G. bnd G. injection G as <-. apply (weq_app [u] [t]); [apply weq_txt; unfold txt; cbn [map]; congruence|]. eapply IH; exact E0. }
  assert (AF : forall b own2 r2, after f outer t b own2 r2 = Ok o -> weq o (b ++ r2)).
  { intros b own2 r2 G. unfold after in G. destruct b as [|x b].
    - apply IH in G. eapply weq_trans; [exact G|]. apply weq_txt. destruct r2; reflexivity.
    - apply IH in G. eapply weq_trans; [exact G|]. apply weq_txt. reflexivity. }
  destruct (noexp t); [eapply EM; [|exact H]; reflexivity|]. destruct (find_mac t) as [m|] eqn:FM; [|eapply EM; [|exact H]; reflexivity].
  destruct (locked outer own (mtext t)); [eapply EM; [|exact H]; reflexivity|]. destruct (find_mac_ok _ _ FM) as [NT [BB [PP _]]].
  destruct (mobj m).
  - bnd H. apply AF in H. eapply weq_trans; [exact H|]. apply insert_objlike_weq in E. cbn [rev app] in E. intros k. rewrite wk_np by exact NT. rewrite wk_app, E, BB. reflexivity.
  - destruct (eqh r "(") eqn:EQ; [|eapply EM; [|exact H]; reflexivity]. bnd H. destruct x as [[own2 pre] r3]. bnd H. apply AF in H. eapply weq_trans; [exact H|].
    destruct r as [|p r]; [discriminate|]. cbn [eqh tl] in *. destruct (prepare_spec _ _ _ _ _ _ _ E) as [l0 [q [-> [Q [W T]]]]]. destruct x as [args om]. destruct (read_args_bal _ _ _ _ _ _ _ E0) as [BA _].
    assert (HE : forall a x, bal a -> expand f (names own2 ++ outer) [] a = Ok x -> bal x) by (intros a x B G; apply IH in G; eapply bal_weq; [apply weq_sym, G|exact B]).
    apply (subst_weq paste Hp _ (mkctx m args om) BA PP HE) in E1. cbn [rev app] in E1.
    intros k. rewrite wk_np by exact NT. rewrite wk_app, weq_filter, E1, BB.
    change (p :: l0 ++ q :: r3) with ((p :: l0 ++ [q] ++ r3)). replace (p :: l0 ++ [q] ++ r3) with ((p :: l0 ++ [q]) ++ r3) by (cbn [app]; rewrite <- app_assoc; reflexivity).
    rewrite wk_app. rewrite (bal_group p l0 q EQ Q (bal_intro _ W)). reflexivity.
Qed.
End Exp.
