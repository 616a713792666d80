(** Parameters of #embed that are not well formed. *)
From Coq Require Import String ZArith List Bool Lia.
From Verif Require Import Base EmbedSpec EmbedModel EmbedProofs.
Import ListNotations.
Local Open Scope string_scope.
Local Open Scope list_scope.

Lemma params_abort : forall bad, (forall k q, params k q bad = Abort) ->
  forall ps, Forall (fun p => balanced (snd p)) ps -> forall k q, params k q (written ps ++ bad) = Abort.
Proof.
  intros bad HB. induction 1 as [|[m a] ps B F IH]; intros k q; [apply HB|].
  assert (W : written ((m, a) :: ps) ++ bad = Tx (spell m) :: LP :: a ++ RP :: (written ps ++ bad)).
  { cbn [written flat_map fst snd app]. rewrite <- !app_assoc. reflexivity. }
  rewrite W. destruct k as [|k]; [reflexivity|]. rewrite params_one by exact B. apply IH.
Qed.
Lemma open_abort : forall n rest, (forall r, rest <> LP :: r) -> forall k q, params k q (Tx (spell n) :: rest) = Abort.
Proof.
  intros n rest N [|k] q; [reflexivity|].
  assert (S : skip_lp rest = Abort).
  { destruct rest as [|t r]; [reflexivity|]. cbn [skip_lp]. rewrite equal_ne; [reflexivity|]. intros ->. exact (N r eq_refl). }
  destruct n; cbn [params]; cbn [equal spell String.eqb Ascii.eqb Bool.eqb]; rewrite S; reflexivity.
Qed.
Lemma skip_bal : forall a, balanced a -> forall level l, skip_paren level (a ++ l) = skip_paren level l.
Proof.
  induction 1 as [|t a N1 N2 B IH|a b B1 IH1 B2 IH2]; intros level l; [reflexivity| |].
  - cbn [app skip_paren]. rewrite (equal_ne t ")" N2), (equal_ne t "(" N1), andb_false_r. apply IH.
  - cbn [app skip_paren]. change (equal LP ")") with false. change (equal LP "(") with true. rewrite andb_false_r, <- app_assoc, IH1.
    cbn [app skip_paren]. change (equal RP ")") with true. change (equal RP "(") with false. cbn [Nat.eqb andb pred]. apply IH2.
Qed.
Lemma close_abort : forall n a, balanced a -> forall k q, params k q (Tx (spell n) :: LP :: a) = Abort.
Proof.
  intros n a B [|k] q; [reflexivity|].
  assert (S : skip_paren 0 a = Abort) by (rewrite <- (app_nil_r a), skip_bal by exact B; reflexivity).
  destruct n; cbn [params]; cbn [equal spell String.eqb Ascii.eqb Bool.eqb skip_lp]; change (equal LP "(") with true; cbn [bind]; rewrite S; reflexivity.
Qed.
Theorem embed_malformed : forall ev ps cont n rest file, Forall (fun p => balanced (snd p)) ps ->
  ((forall r, rest <> LP :: r) \/ (exists a, balanced a /\ rest = LP :: a)) ->
  embed_file ev cont (written ps ++ Tx (spell n) :: rest) file = Abort /\ has_embed ev (written ps ++ Tx (spell n) :: rest) file = Abort.
Proof.
  intros ev ps cont n rest file F H.
  assert (A : forall k q, params k q (Tx (spell n) :: rest) = Abort).
  { destruct H as [H|(a & B & ->)]; [exact (open_abort n rest H)|exact (close_abort n a B)]. }
  unfold embed_file, has_embed, read_params. rewrite (params_abort _ A ps F). split; reflexivity.
Qed.
