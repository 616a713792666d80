(** The parser never runs out of fuel, and more fuel does not change its answer. *)
From Coq Require Import String ZArith List Bool Lia.
From Verif Require Import Base DeclSpec DeclModel ExprSpec ExprModel ExprEqs.
Import ListNotations.

(** * Less fuel: the same answer or none *)
Definition leq {A} (m m' : pres A) : Prop := m = PFuel \/ m' = m.
Lemma leq_refl {A} (m : pres A) : leq m m.
Proof. right. reflexivity. Qed.
Lemma leq_bind {A B} (m m' : pres A) (k k' : A -> pres B) :
  leq m m' -> (forall a, leq (k a) (k' a)) -> leq (pbind m k) (pbind m' k').
Proof.
  intros [E | E] H.
  - subst m. left. reflexivity.
  - subst m'. destruct m; cbn; [apply H | right; reflexivity | left; reflexivity].
Qed.
Lemma leq_trans {A} (a b c : pres A) : leq a b -> leq b c -> leq a c.
Proof. intros [E | E] [F | F]; subst; unfold leq; auto. Qed.
Lemma leq_ok {A} (m m' : pres A) v : leq m m' -> m = v -> v <> PFuel -> m' = v.
Proof. intros [E | E] H N; subst; [contradiction | reflexivity]. Qed.

Section Mono.
Variable tdef : string -> option dtype.
Variables c23 auty : bool.
Notation p_expr := (expr tdef c23 auty).
Notation p_assign := (assign tdef c23 auty).
Notation p_conditional := (conditional tdef c23 auty).
Notation p_binary := (binary tdef c23 auty).
Notation p_loop := (binary_loop tdef c23 auty).
Notation p_tparen := (typename_paren tdef c23 auty).
Notation p_cast := (cast tdef c23 auty).
Notation p_unary := (unary tdef c23 auty).
Notation p_postfix := (postfix tdef c23 auty).
Notation p_funargs := (funargs tdef c23 auty).
Notation p_primary := (primary tdef c23 auty).
Notation p_typename := (typename tdef c23 auty).
Notation p_declarator := (declarator tdef c23 auty).
Notation p_suffix := (type_suffix tdef c23 auty).
Notation p_dims := (array_dimensions tdef c23 auty).
Notation p_func := (func_params tdef c23 auty).
Notation p_params := (params tdef c23 auty).

Record mono (f : nat) : Prop := {
  m_expr : forall toks, leq (p_expr f toks) (p_expr (S f) toks);
  m_assign : forall toks, leq (p_assign f toks) (p_assign (S f) toks);
  m_conditional : forall toks, leq (p_conditional f toks) (p_conditional (S f) toks);
  m_binary : forall l toks, leq (p_binary f l toks) (p_binary (S f) l toks);
  m_loop : forall l a toks, leq (p_loop f l a toks) (p_loop (S f) l a toks);
  m_tparen : forall toks, leq (p_tparen f toks) (p_tparen (S f) toks);
  m_cast : forall toks, leq (p_cast f toks) (p_cast (S f) toks);
  m_unary : forall toks, leq (p_unary f toks) (p_unary (S f) toks);
  m_postfix : forall a toks, leq (p_postfix f a toks) (p_postfix (S f) a toks);
  m_funargs : forall b toks, leq (p_funargs f b toks) (p_funargs (S f) b toks);
  m_primary : forall toks, leq (p_primary f toks) (p_primary (S f) toks);
  m_typename : forall toks, leq (p_typename f toks) (p_typename (S f) toks);
  m_declarator : forall n T toks, leq (p_declarator f n T toks) (p_declarator (S f) n T toks);
  m_suffix : forall T toks, leq (p_suffix f T toks) (p_suffix (S f) T toks);
  m_dims : forall T toks, leq (p_dims f T toks) (p_dims (S f) T toks);
  m_func : forall T toks, leq (p_func f T toks) (p_func (S f) T toks);
  m_params : forall b toks, leq (p_params f b toks) (p_params (S f) b toks)
}.

Ltac mstep M :=
  first
  [ apply leq_refl
  | apply (m_expr _ M) | apply (m_assign _ M) | apply (m_conditional _ M) | apply (m_binary _ M)
  | apply (m_loop _ M) | apply (m_tparen _ M) | apply (m_cast _ M) | apply (m_unary _ M)
  | apply (m_postfix _ M) | apply (m_funargs _ M) | apply (m_primary _ M) | apply (m_typename _ M)
  | apply (m_declarator _ M) | apply (m_suffix _ M) | apply (m_dims _ M) | apply (m_func _ M)
  | apply (m_params _ M)
  | apply leq_bind; [|intros ?]
  | match goal with |- leq (match ?x with _ => _ end) _ => destruct x end ].

Lemma mono_all : forall f, mono f.
Proof.
  induction f as [|f M].
  - constructor; intros; left; reflexivity.
  - constructor; intros.
    + rewrite !expr_S. repeat mstep M.
    + rewrite !assign_S. repeat mstep M.
    + rewrite !conditional_S. repeat mstep M.
    + rewrite !binary_S. repeat mstep M.
    + rewrite !binary_loop_S. repeat mstep M.
    + rewrite !typename_paren_S. repeat mstep M.
    + rewrite !cast_S. repeat mstep M.
    + rewrite !unary_S. repeat mstep M.
    + rewrite !postfix_S. repeat mstep M.
    + rewrite !funargs_S. repeat mstep M.
    + rewrite !primary_S. repeat mstep M.
    + rewrite !typename_S. repeat mstep M.
    + rewrite !declarator_S. repeat mstep M.
    + rewrite !type_suffix_S. repeat mstep M.
    + rewrite !array_dimensions_S. repeat mstep M.
    + rewrite !func_params_S. repeat mstep M.
    + rewrite !params_S. repeat mstep M.
Qed.

Lemma leq_le {A} (p : nat -> pres A) : (forall f, leq (p f) (p (S f))) ->
  forall f f', f <= f' -> leq (p f) (p f').
Proof.
  intros H f f' L. induction L as [|f' L IH]; [apply leq_refl|]. exact (leq_trans _ _ _ IH (H f')).
Qed.

(** * Enough fuel: an answer; and what is left is shorter *)
Definition good {A} (Q : A -> Prop) (m : pres A) : Prop :=
  match m with POk a => Q a | PErr => True | PFuel => False end.
Lemma good_bind {A B} (P : A -> Prop) (Q : B -> Prop) m (k : A -> pres B) :
  good P m -> (forall a, P a -> good Q (k a)) -> good Q (pbind m k).
Proof. destruct m; cbn; auto. Qed.
Lemma good_weak {A} (P Q : A -> Prop) m : good P m -> (forall a, P a -> Q a) -> good Q m.
Proof. destruct m; cbn; auto. Qed.

Notation len := (@List.length tok).

Lemma punct_len s toks r : punct s toks = Some r -> len toks = S (len r).
Proof.
  unfold punct. destruct toks as [|[] r0]; try discriminate.
  destruct (String.eqb s s0); [|discriminate]. intros E. injection E as <-. reflexivity.
Qed.
Lemma skip_len s toks : good (fun r => len toks = S (len r)) (skip s toks).
Proof. unfold skip. destruct (punct s toks) eqn:E; cbn; [exact (punct_len _ _ _ E) | exact I]. Qed.
Lemma find_op_len {A} (l : list (string * A)) toks a r : find_op l toks = Some (a, r) -> len toks = S (len r).
Proof.
  induction l as [|[s b] l IH]; cbn [find_op]; [discriminate|].
  destruct (punct s toks) eqn:E; [|exact IH]. intros H. injection H as <- <-. exact (punct_len _ _ _ E).
Qed.
Lemma skip_paren_len : forall toks l, good (fun r => len r < len toks) (skip_paren l toks).
Proof.
  induction toks as [|t r IH]; intros l; cbn [skip_paren]; [exact I|].
  assert (H : forall l', good (fun q => len q < len (t :: r)) (skip_paren l' r)).
  { intros l'. apply (good_weak _ _ _ (IH l')). intros a. cbn. lia. }
  repeat match goal with |- good _ (match ?x with _ => _ end) => destruct x end; try apply H; cbn; lia.
Qed.
Lemma pointers_len : forall toks T c, len (snd (pointers T c toks)) <= len toks.
Proof.
  induction toks as [|t r IH]; intros T c; cbn [pointers]; [cbn; lia|].
  assert (H : forall T c, len (snd (pointers T c r)) <= len (t :: r)).
  { intros T' c'. specialize (IH T' c'). cbn [List.length]. lia. }
  repeat match goal with |- context [match ?x with _ => _ end] =>
    lazymatch x with context [pointers] => fail | _ => destruct x end end; try apply H; cbn; lia.
Qed.
Lemma pquals_len : forall toks q, len (snd (pointer_qualifiers q toks)) <= len toks.
Proof.
  induction toks as [|t r IH]; intros q; cbn [pointer_qualifiers]; [cbn; lia|].
  destruct t as [| |[]| | |]; try (cbn; lia). specialize (IH (set_q q q0)). cbn [List.length]. lia.
Qed.
Lemma dspec_len toks : good (fun '(_, r) => len r <= len toks) (dspec tdef c23 auty toks).
Proof.
  unfold dspec. destruct (declspec _ _ _ _ _) as [[[t a] r]| |]; cbn; try exact I.
  rewrite skipn_length. lia.
Qed.
Lemma specifiers_len ctx : forall l late s, match specifiers ctx c23 auty l late s with
  Ok (_, r) => List.length r <= List.length l | _ => True end.
Proof.
  induction l as [|t l IH]; intros late s; cbn [specifiers]; [destruct late; exact I || (cbn; lia)|].
  assert (W : forall late s, match specifiers ctx c23 auty l late s with
              Ok (_, r) => List.length r <= List.length (t :: l) | _ => True end).
  { intros la s0. specialize (IH la s0). destruct (specifiers _ _ _ l la s0) as [[? r]| |]; try exact I.
    cbn [List.length]. lia. }
  assert (B : match (do o <- specifier ctx c23 auty s t;
              match o with None => Ok (s, t :: l) | Some s' => specifiers ctx c23 auty l false s' end) with
              Ok (_, r) => List.length r <= List.length (t :: l) | _ => True end).
  { destruct (specifier ctx c23 auty s t) as [[s'|]| |]; cbn [bind]; try exact I; [|lia]. apply W. }
  cbv zeta. destruct late; [exact B|]. destruct t; try exact B; try (destruct ctx; apply W || exact I).
  - destruct ctx; try exact I. destruct (stor_clash _); [exact I | apply W].
  - lia.
Qed.
Lemma specifiers_less : forall t l s, t <> TStop -> counter s = 0%Z -> dauto s = false ->
  match specifiers NoAttr c23 auty (t :: l) false s with
  Ok (_, r) => List.length r < List.length (t :: l) | _ => True end.
Proof.
  intros t l s N C A. cbn [specifiers].
  assert (B : match (do o <- specifier NoAttr c23 auty s t;
              match o with None => Ok (s, t :: l) | Some s' => specifiers NoAttr c23 auty l false s' end) with
              Ok (_, r) => List.length r < List.length (t :: l) | _ => True end).
  { destruct (specifier NoAttr c23 auty s t) as [[s'|]| |] eqn:E; cbn [bind]; try exact I.
    - pose proof (specifiers_len NoAttr l false s') as H.
      destruct (specifiers _ _ _ l false s') as [[? r]| |]; try exact I. cbn [List.length]. lia.
    - exfalso. destruct t; cbn [specifier] in E; try discriminate E.
      + destruct (switch cases _); discriminate E.
      + rewrite C in E. discriminate E.
      + rewrite C, A in E. discriminate E. }
  cbv zeta. destruct t; try exact B; try exact I; [|contradiction].
  pose proof (specifiers_len NoAttr l true s) as H.
  destruct (specifiers _ _ _ l true s) as [[? r]| |]; try exact I. cbn [List.length]. lia.
Qed.
Lemma dspec_less toks : is_typename tdef toks = true ->
  good (fun '(_, r) => len r < len toks) (dspec tdef c23 auty toks).
Proof.
  intros H. unfold dspec, declspec. destruct toks as [|t r]; [discriminate H|].
  assert (N : word tdef t <> TStop).
  { cbn in H. intros E. rewrite E in H. discriminate H. }
  cbn [map]. pose proof (specifiers_less (word tdef t) (map (word tdef) r) (mkdst None 0%Z noq false no_attr) N eq_refl eq_refl) as L.
  destruct (specifiers _ _ _ _ _ _) as [[s r']| |]; cbn [bind]; try exact I.
  destruct (finish Abort (fst (s, r'))) as [ty| |]; cbn [bind]; try exact I.
  cbn [good snd]. rewrite skipn_length. cbn [List.length] in *. rewrite map_length in L. lia.
Qed.
Lemma ident_len toks : good (fun '(_, r) => len toks = S (len r)) (ident toks).
Proof. destruct toks as [|[] r]; cbn; auto. Qed.

Record enough (f : nat) : Prop := {
  e_expr : forall toks, 40 * len toks + 21 <= f -> good (fun '(_, r) => len r < len toks) (p_expr f toks);
  e_assign : forall toks, 40 * len toks + 20 <= f -> good (fun '(_, r) => len r < len toks) (p_assign f toks);
  e_conditional : forall toks, 40 * len toks + 19 <= f ->
    good (fun '(_, r) => len r < len toks) (p_conditional f toks);
  e_binary : forall l toks, l <= 10 -> 40 * len toks + 18 - l <= f ->
    good (fun '(_, r) => len r < len toks) (p_binary f l toks);
  e_loop : forall l a toks, l < 10 -> 40 * len toks + 20 <= f ->
    good (fun '(_, r) => len r <= len toks) (p_loop f l a toks);
  e_tparen : forall toks, 40 * len toks + 6 <= f ->
    good (fun o => match o with Some (_, r) => len r < len toks | None => True end) (p_tparen f toks);
  e_cast : forall toks, 40 * len toks + 7 <= f -> good (fun '(_, r) => len r < len toks) (p_cast f toks);
  e_unary : forall toks, 40 * len toks + 5 <= f -> good (fun '(_, r) => len r < len toks) (p_unary f toks);
  e_postfix : forall a toks, 40 * len toks + 5 <= f ->
    good (fun '(_, r) => len r <= len toks) (p_postfix f a toks);
  e_funargs : forall b toks, 40 * len toks + 25 <= f ->
    good (fun '(_, r) => len r < len toks) (p_funargs f b toks);
  e_primary : forall toks, 40 * len toks + 4 <= f -> good (fun '(_, r) => len r < len toks) (p_primary f toks);
  e_typename : forall toks, 40 * len toks + 15 <= f ->
    good (fun '(_, r) => len r <= len toks) (p_typename f toks);
  e_declarator : forall n T toks, 40 * len toks + 14 <= f ->
    good (fun '(_, _, r) => len r <= len toks) (p_declarator f n T toks);
  e_suffix : forall T toks, 40 * len toks + 13 <= f ->
    good (fun '(_, r) => len r <= len toks) (p_suffix f T toks);
  e_dims : forall T toks, 40 * len toks + 25 <= f ->
    good (fun '(_, r) => len r < len toks) (p_dims f T toks);
  e_func : forall T toks, 40 * len toks + 26 <= f ->
    good (fun '(_, r) => len r < len toks) (p_func f T toks);
  e_params : forall b toks, (b = true -> is_typename tdef toks = true) -> 40 * len toks + 25 <= f ->
    good (fun '(_, _, r) => len r < len toks) (p_params f b toks)
}.

Ltac lens :=
  repeat match goal with
  | H : punct _ _ = Some _ |- _ => apply punct_len in H
  | H : find_op _ _ = Some (_, _) |- _ => apply find_op_len in H
  end; cbn [List.length] in *; lia.
Ltac callg L := (eapply good_bind; [eapply L; lens | intros [? ?] ?]).
Ltac calls :=
  (eapply good_bind; [apply skip_len | intros ? ?]).
Ltac fin L := (eapply good_weak; [eapply L; lens | intros [? ?] ?; lens]).

Lemma enough_all : forall f, enough f.
Proof.
  induction f as [|f E].
  - constructor; intros; exfalso; lia.
  - constructor; intros.
    + rewrite expr_S. callg (e_assign _ E). destruct (punct "," l) eqn:P.
      * callg (e_expr _ E). cbn. lens.
      * cbn. lia.
    + rewrite assign_S. callg (e_conditional _ E). destruct (find_op asg_ops l) as [[o r]|] eqn:P.
      * callg (e_assign _ E). cbn. lens.
      * cbn. lia.
    + rewrite conditional_S. callg (e_binary _ E). destruct (punct "?" l) eqn:P; [|cbn; lia].
      destruct (punct ":" l0) eqn:P1.
      * callg (e_conditional _ E). cbn. lens.
      * callg (e_expr _ E). calls. callg (e_conditional _ E). cbn. lens.
    + rewrite binary_S. destruct (Nat.eqb l 10) eqn:L.
      * apply Nat.eqb_eq in L. fin (e_cast _ E).
      * apply Nat.eqb_neq in L. callg (e_binary _ E). fin (e_loop _ E).
    + rewrite binary_loop_S. destruct (find_op (level_ops l) toks) as [[o r]|] eqn:P; [|cbn; lia].
      callg (e_binary _ E). fin (e_loop _ E).
    + rewrite typename_paren_S. destruct (punct "(" toks) eqn:P; [|exact I].
      destruct (is_typename tdef l); [|exact I].
      eapply good_bind; [apply skip_paren_len | intros q Lq]. destruct (punct "{" q); [exact I|].
      callg (e_typename _ E). calls. cbn. lens.
    + rewrite cast_S. eapply good_bind; [eapply (e_tparen _ E); lens|]. intros [[t r]|] Hr.
      * callg (e_cast _ E). cbn. lens.
      * fin (e_unary _ E).
    + rewrite unary_S. destruct (find_op un_ops toks) as [[u r]|] eqn:P.
      { callg (e_cast _ E). cbn. lens. }
      destruct (find_op [("++"%string, true); ("--"%string, false)] toks) as [[u r]|] eqn:P1.
      { callg (e_unary _ E). cbn. lens. }
      destruct (punct "&&" toks) eqn:P2.
      { eapply good_bind; [apply ident_len | intros [? ?] ?]. cbn. lens. }
      callg (e_primary _ E). fin (e_postfix _ E).
    + rewrite postfix_S. destruct (punct "(" toks) eqn:P.
      { callg (e_funargs _ E). fin (e_postfix _ E). }
      destruct (punct "[" toks) eqn:P1.
      { callg (e_expr _ E). calls. fin (e_postfix _ E). }
      destruct (punct "." toks) eqn:P2.
      { eapply good_bind; [apply ident_len | intros [? ?] ?]. fin (e_postfix _ E). }
      destruct (punct "->" toks) eqn:P3.
      { eapply good_bind; [apply ident_len | intros [? ?] ?]. fin (e_postfix _ E). }
      destruct (find_op [("++"%string, true); ("--"%string, false)] toks) as [[u r]|] eqn:P4; [|cbn; lia].
      fin (e_postfix _ E).
    + rewrite funargs_S. destruct (punct ")" toks) eqn:P; [cbn; lens|].
      eapply good_bind with (P := fun r => len r <= len toks).
      { destruct b; [cbn; lia|]. eapply good_weak; [apply skip_len|]. cbv beta. intros. lia. }
      intros r Hr. callg (e_assign _ E). callg (e_funargs _ E). cbn. lens.
    + rewrite primary_S.
      repeat match goal with
      | |- good _ (match ?x with _ => _ end) =>
          lazymatch x with is_typename _ _ => fail | punct _ _ => fail | _ => destruct x end
      end; try exact I; try (cbn; lia).
      all: try (eapply good_bind; [eapply (e_tparen _ E); lens|]; intros [[t r]|] Hr; [cbn; lens|];
                callg (e_unary _ E); cbn; lens).
      destruct (is_typename tdef _); [exact I|]. destruct (punct "{" _); [exact I|].
      callg (e_expr _ E). calls. cbn. lens.
    + rewrite typename_S. eapply good_bind; [apply dspec_len | intros [? ?] ?].
      eapply good_bind; [eapply (e_declarator _ E); lens | intros [[? ?] ?] ?]. cbn. lens.
    + rewrite declarator_S. destruct (pointers T None toks) as [T1 r] eqn:P0.
      pose proof (pointers_len toks T None) as L0. rewrite P0 in L0. cbn [snd] in L0. cbv beta iota zeta.
      destruct (punct "(" r) as [r1|] eqn:P1.
      * destruct (_ || _).
        -- callg (e_func _ E). cbn. lens.
        -- eapply good_bind; [apply skip_paren_len | intros q Lq].
           callg (e_suffix _ E). eapply good_bind; [eapply (e_declarator _ E); lens | intros [[? ?] ?] ?]. cbn. lens.
      * assert (H1 : exists x r', match r with
                         | TId s :: r' => if n then (Some s, r') else (None, r)
                         | _ => (None, r)
                         end = (x, r') /\ len r' <= len r).
        { destruct r as [|[] r]; try (do 2 eexists; split; [reflexivity | lia]).
          destruct n; do 2 eexists; (split; [reflexivity | cbn; lia]). }
        destruct H1 as (x & r' & -> & L1). callg (e_suffix _ E). cbn. lens.
    + rewrite type_suffix_S. destruct (punct "(" toks) eqn:P.
      { fin (e_func _ E). }
      destruct (punct "[" toks) as [r|] eqn:P1; [|cbn; lia].
      assert (H1 : good (fun '(_, r0) => len r0 <= len toks) (p_dims f T r)).
      { fin (e_dims _ E). }
      destruct r as [|[] r]; try exact H1. clear H1.
      destruct (pointer_qualifiers noq (TD d :: r)) as [q r2] eqn:P2. cbv beta iota zeta.
      pose proof (pquals_len (TD d :: r) noq) as L2. rewrite P2 in L2. cbn [snd] in L2.
      set (r3 := match r2 with TD (TStor SStatic) :: r0 => r0 | _ => r2 end).
      assert (L3 : len r3 <= len r2).
      { subst r3. repeat match goal with |- len (match ?x with _ => _ end) <= _ => destruct x end; cbn; lia. }
      clearbody r3. callg (e_dims _ E). cbn. lens.
    + rewrite array_dimensions_S.
      set (o := match punct "]" toks with Some r => Some r | None => _ end).
      assert (H1 : match o with Some r => len r < len toks | None => True end).
      { subst o. destruct (punct "]" toks) eqn:P; [lens|]. destruct (punct "*" toks) as [r|] eqn:P1; [|exact I].
        destruct (punct "]" r) eqn:P2; [lens | exact I]. }
      destruct o as [r|].
      * destruct (punct "[" r) eqn:P; [|cbn; lia]. callg (e_dims _ E). cbn. lens.
      * callg (e_assign _ E). calls. destruct (punct "[" a) eqn:P; [|cbn; lens]. callg (e_dims _ E). cbn. lens.
    + rewrite func_params_S.
      destruct (match punct "..." toks with Some r => punct ")" r | None => None end) eqn:P.
      { destruct (punct "..." toks) eqn:P0; [|discriminate P]. cbn. lens. }
      match goal with |- good _ (match ?x with _ => _ end) => destruct x eqn:P0 end.
      { destruct toks as [|[| |[[]| | | | | | | | | | |]| | |] toks]; try discriminate P0. cbn. lens. }
      destruct (punct ")" toks) eqn:P1; [cbn; lens|]. destruct (is_typename tdef toks) eqn:TN; [|exact I].
      eapply good_bind; [eapply (e_params _ E); [intros _; exact TN | lens] | intros [[? ?] ?] ?]. cbn. lens.
    + rewrite params_S. destruct (punct ")" toks) eqn:P; [cbn; lens|].
      eapply good_bind with (P := fun r => if b then r = toks else len toks = S (len r)).
      { destruct b; [reflexivity|]. apply skip_len. }
      intros r Hr. cbv beta in Hr. assert (len r <= len toks) by (destruct b; [subst; lia | lia]).
      destruct (punct "..." r) eqn:P1.
      { calls. cbn. lens. }
      eapply good_bind with (P := fun '(_, r0) => len r0 < len toks).
      { destruct b.
        - subst r. apply dspec_less. auto.
        - eapply good_weak; [apply dspec_len|]. intros [? ?] ?. cbv beta iota in *. lia. }
      intros [t r1] L1.
      eapply good_bind; [eapply (e_declarator _ E); lens | intros [[? ?] r2] L2].
      eapply good_bind; [eapply (e_params _ E); [discriminate | lens] | intros [[? ?] r3] L3].
      cbn. lens.
Qed.

Lemma fuel_ok toks r : r <= 40 -> 40 * len toks + r <= fuel toks.
Proof. unfold fuel. lia. Qed.
End Mono.
