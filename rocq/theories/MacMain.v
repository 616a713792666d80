(** C12: the statements about macro expansion with the tokenizer as paste. *)
From Coq Require Import Ascii String ZArith List Bool Lia.
From Verif Require Import Base LexModel PpSpec MacSpec MacModel MacPasteModel MacProofs MacTerm MacObj MacPaste MacSubst.
Import ListNotations.
Local Open Scope string_scope.
Local Open Scope list_scope.

Lemma walk_shift i l : forall k j, walk k l = Some j -> walk (k + i) l = Some (j + i)%nat.
Proof.
  induction l as [|s l IH]; intros k j; cbn [walk]; [intros H; injection H as <-; reflexivity|]. destruct (String.eqb s "("); [intros H; apply (IH (S k) j H)|].
  destruct (String.eqb s ")"); [|apply IH]. destruct k as [|k]; [discriminate|]. intros H. cbn [Nat.add]. apply IH, H.
Qed.
Definition bodies_balanced (tbl : mtable) : Prop :=
  forall s m, lookup s tbl = Some m -> balanced_parens (map ttext (mbody m)) /\ forall p, In p (s :: mparams m) -> p <> "(" /\ p <> ")".
Lemma bodies_ok tbl : bodies_balanced tbl -> tbl_ok tbl.
Proof.
  intros H s m L. destruct (H s m L) as [B P]. destruct (P s (or_introl eq_refl)) as [N1 N2]. repeat split; auto; try (apply P; right; assumption).
  intros k. exact (walk_shift k _ _ _ B).
Qed.
Theorem terminates o strict tbl : bodies_balanced tbl ->
  forall l, exists f r, r <> UB /\ forall f', (f <= f')%nat -> expand (paste_lex o) strict tbl f' [] [] l = r.
Proof. intros H. exact (expansion_terminates _ (paste_lex_ok o) (paste_lex_no_ub o) strict tbl (bodies_ok _ H)). Qed.
Theorem parens_kept o strict tbl f l r : bodies_balanced tbl ->
  expand (paste_lex o) strict tbl f [] [] l = Ok r -> forall k, walk k (map ttext r) = walk k (map ttext l).
Proof. intros H E. exact (expand_weq _ (paste_lex_ok o) strict tbl (bodies_ok _ H) _ _ _ _ _ E). Qed.

(** Two macros that open a call they do not close. *)
Definition tk (k : kind) (s : string) : mtok := mkmtok k s true false.
Definition call (s : string) : list mtok := [tk KOther "("; tk KId s; tk KOther ")"].
Definition opens (s : string) : mac := mkmac true [] false (tk KId "g" :: tk KOther "(" :: call s).
Definition loop_tbl : mtable := [("m", opens "n"); ("n", opens "m"); ("g", mkmac false ["x"] false [tk KId "x"])].
Lemma loops o strict : forall f, expand (paste_lex o) strict loop_tbl f [] [] (call "m") = UB /\ expand (paste_lex o) strict loop_tbl f [] [] (call "n") = UB.
Proof.
  induction f as [f IH] using (well_founded_induction Wf_nat.lt_wf). destruct f as [|[|[|f]]]; [split; reflexivity..|].
  destruct (IH f ltac:(lia)) as [A B]. split; cbn; [unfold call in B; rewrite B|unfold call in A; rewrite A]; reflexivity.
Qed.

(** f(,f(,a)) with #define f(x, y) x ## y. *)
Definition cat_tbl : mtable := [("f", mkmac false ["x"; "y"] false [tk KId "x"; tk KOther "##"; tk KId "y"])].
Definition cat_call : list mtok := [tk KId "f"; tk KOther "("; tk KOther ","; tk KId "f"; tk KOther "("; tk KOther ","; tk KId "a"; tk KOther ")"; tk KOther ")"].
Lemma hash_operand :
  list_value mtok (paste_lex (mklopt false)) stringize align (fun i => nth i [[tk KId "a"]] []) (fun i => nth i [[tk KId "a"]] [])
    [(Plain (tk KId "L"), [Str (tk KOther "#") (tk KId "x") 0])] = Ok [tk KLit "L""a"""] /\
  forall strict f, (3 <= f)%nat ->
    expand (paste_lex (mklopt false)) strict
      [("W", mkmac false ["x"] false [tk KId "L"; tk KOther "##"; tk KOther "#"; tk KId "x"])] f [] []
      [tk KId "W"; tk KOther "("; tk KId "a"; tk KOther ")"] = Abort.
Proof.
  split; [vm_compute; reflexivity|]. intros strict f L.
  set (tbl := [("W", _)]). set (l := [tk KId "W"; _; _; _]).
  assert (E : expand (paste_lex (mklopt false)) strict tbl 3 [] [] l = Abort) by (destruct strict; vm_compute; reflexivity).
  rewrite <- E. apply expand_mono; [exact L|]. rewrite E. discriminate.
Qed.
Lemma empty_operand : exists tbl l, tbl = cat_tbl /\ l = cat_call /\
  list_value mtok (paste_lex (mklopt false)) stringize align
    (fun i => nth i [[]; [tk KId "f"; tk KOther "("; tk KOther ","; tk KId "a"; tk KOther ")"]] []) (fun i => nth i [[]; [tk KId "a"]] [])
    [(Param (tk KId "x") 0, [Param (tk KId "y") 1])] = Ok [tk KId "f"; tk KOther "("; tk KOther ","; tk KId "a"; tk KOther ")"] /\
  forall strict f, (20 <= f)%nat -> expand (paste_lex (mklopt false)) strict tbl f [] [] l = Ok [tk KId "a"].
Proof.
  exists cat_tbl, cat_call. repeat split; try reflexivity. intros strict f L.
  assert (E : expand (paste_lex (mklopt false)) strict cat_tbl 20 [] [] cat_call = Ok [tk KId "a"]) by (destruct strict; vm_compute; reflexivity).
  rewrite <- E. apply expand_mono; [exact L|]. rewrite E. discriminate.
Qed.
