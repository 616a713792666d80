(** Arithmetic by constants, and totality on expressions. *)
From Coq Require Import ZArith List Bool Lia.
From Verif Require Import Base BitLemmas IntSpec IntLemmas IntModel IntTyped IntProofs IntFold
  IntElab IntMain X86 CgModel CgSpec CgLemmas CgSeq CgSeq2 CgSeq3 CgInv CgTree CgGen CgMain CgTotal.
Import ListNotations.
Local Open Scope Z_scope.

Lemma const_arith sym o n v m : n = 4 \/ n = 8 -> - 2 ^ 63 <= v < 2 ^ 63 -> o <> BDiv -> o <> BMod ->
  exists code m', imm_arith o n (limit_imm v n) = Ok code /\ run sym code None m = Some (None, m') /\
    rg m' AX mod 2 ^ (8 * n) = word_op o (rg m AX) v mod 2 ^ (8 * n) /\
    only_acd m m'.
Proof.
  intros Hn Hv O1 O2.
  assert (X : exists s, size_of n = Ok s /\ nbits s = 8 * n /\ imm_dom s (limit_imm v n) /\ eqm (8 * n) (limit_imm v n) v).
  { destruct Hn as [-> | ->].
    - exists S4. split; [reflexivity|]. split; [reflexivity|]. unfold limit_imm, imm_dom. cbn [size_eqb Z.eqb Pos.eqb].
      rewrite sx_sext by lia. split; [apply (sx_range 32 v); lia|unfold eqm; apply (sx_mod 32); lia].
    - exists S8. split; [reflexivity|]. split; [reflexivity|]. unfold limit_imm, imm_dom. cbn [size_eqb Z.eqb Pos.eqb].
      split; [exact Hv|apply eqm_refl]. }
  destruct X as [s [E1 [E2 [E3 E4]]]].
  assert (AR : exists c, imm_arith o n (limit_imm v n) = Ok c).
  { unfold imm_arith. rewrite E1. cbn [bind]. destruct o; cbn [arith_ins bind]; try congruence; repeat match goal with |- context [if ?b then _ else _] => destruct b end; eauto;
      match goal with |- context [match ?b with Some _ => _ | None => _ end] => destruct b end; eauto. }
  destruct AR as [c EC]. exists c.
  destruct (imm_arith_ok sym o n _ m c s EC E1 ltac:(lia) E3) as [m' [R [[P1 P2] Q]]]. exists m'.
  split; [exact EC|]. split; [exact R|]. split; [|split; auto].
  rewrite E2 in Q. change (eqm (8 * n) (rg m' AX) (word_op o (rg m AX) v)).
  eapply eqm_trans; [exact Q|]. replace (word_op o) with (alu_fun o) by (destruct o; try congruence; reflexivity).
  apply alu_fun_eqm; [split; auto|lia|apply eqm_refl|exact E4].
Qed.

Lemma const_shift sym o n v m : n = 4 \/ n = 8 -> 0 <= v < 8 * n ->
  exists code m', imm_shift o n v = Ok code /\ run sym code None m = Some (None, m') /\
    rg m' AX mod 2 ^ (8 * n) = word_shift o (8 * n) (rg m AX) v mod 2 ^ (8 * n) /\ only_acd m m'.
Proof.
  intros Hn Hv.
  assert (X : exists s, size_of n = Ok s /\ nbits s = 8 * n /\ big s).
  { destruct Hn as [-> | ->]; [exists S4|exists S8]; unfold big; auto. }
  destruct X as [s [E1 [E2 Bs]]]. pose proof (nbits_pos s) as NP. unfold imm_shift. rewrite E1. cbn [bind].
  destruct (Z.eqb_spec v 0) as [->|N0].
  - exists [], m. split; [reflexivity|]. split; [reflexivity|]. split; [|split; auto].
    unfold word_shift. cbv zeta. change (2 ^ 0) with 1. rewrite <- E2.
    destruct o; rewrite ?Z.mul_1_r, ?Z.div_1_r, ?Z.mod_mod by lia; try reflexivity.
    destruct (_ <? _); [rewrite Z.mod_mod by lia; reflexivity|].
    rewrite Zminus_mod, Z.mod_mod, Z_mod_same_full by lia. rewrite Z.sub_0_r, Z.mod_mod by lia. reflexivity.
  - assert (IR : in_imm_range v = true) by (apply in_imm_spec; lia). rewrite IR.
    destruct (sh_imm_ok sym o s v m Bs ltac:(lia)) as [m' [R [[P1 P2] Q]]]. eexists. exists m'.
    split; [reflexivity|]. split; [exact R|]. split; [|split; auto]. rewrite Q, <- E2, Z.mod_mod by lia.
    unfold word_shift, sh_res, getr, sgn. destruct o; reflexivity.
Qed.

Lemma const_divmod rec (d : bool) i e v st st' : i <> TBool -> 32 <= iwidth i ->
  divmod_opt rec d (mty i) e v st = Ok (Some st') ->
  exists st1 code, rec MExpr e st = Ok st1 /\ out st' = out st1 ++ code /\
    forall sym m x y w, in_range i x -> in_range i y -> v = rep64 y ->
      rg m AX mod 2 ^ iwidth i = x mod 2 ^ iwidth i -> c_bin (if d then BDiv else BMod) i x y = Some w ->
      exists m', run sym code None m = Some (None, m') /\
        rg m' AX mod 2 ^ iwidth i = w mod 2 ^ iwidth i /\ only_acd m m'.
Proof.
  intros NB W H. destruct (divmod_ok (fun _ => 0) rec d i e v st st' NB W H) as [st1 [code [A [-> [L X]]]]].
  exists st1, code. split; [exact A|]. split; [reflexivity|]. intros sym m x y w R1 R2 V E C.
  destruct (divmod_ok sym rec d i e v st _ NB W H) as [st2 [code2 [A2 [B2 [L2 X2]]]]].
  assert (code2 = code).
  { rewrite A in A2. injection A2 as <-. assert (Q : out (emit code st1) = out (emit code2 st1)) by (rewrite B2; reflexivity).
    cbn [emit out] in Q. apply app_inv_head in Q. congruence. }
  subst code2. destruct (X2 m x y w R1 R2 V E C) as [m' [R [[P1 P2] Q]]]. exists m'. split; [exact R|]. split; [exact Q|split; auto].
Qed.

Theorem code_total G env e : (forall a b, same (gc G) a b = true -> a = b) -> strict (gc G) = false ->
  saved (lptr G) -> 0 <= lvar_sz G -> wf env e -> known_ok (known (gc G)) env e -> plain_casts e ->
  exists n, elab (gc G) e = Ok n /\
    (counts_ok (gc G) n -> exists f, forall st, exists st', gen G f MExpr n st = Ok st').
Proof.
  intros CO LX FS LV W K C. destruct (elab_total (gc G) env e CO LX W K C) as [n En]. exists n. split; [exact En|].
  intros KN. exists (S (meas MExpr n)). intros st. apply gen_total; auto.
  apply (er_wt _ _ _ _ (elab_ok _ env CO e W K C n En)).
Qed.
