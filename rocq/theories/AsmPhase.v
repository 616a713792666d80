(** Proofs for AsmModel.v: the two phases of the assignment. *)
From Coq Require Import Ascii String ZArith List Bool Lia Arith.
From Verif Require Import AsmSpec AsmModel AsmProofs AsmInv.
Import ListNotations.
Local Open Scope string_scope.
Local Open Scope nat_scope.
Local Open Scope list_scope.

Lemma skip_bare : forall s, skip_percent s = bare s.
Proof.
  induction s as [|a s IH]; [reflexivity|]. cbn [bare]. destruct (Ascii.eqb a "%") eqn:E.
  - apply Ascii.eqb_eq in E. subst a. exact IH.
  - destruct a as [[] [] [] [] [] [] [] []]; try reflexivity. discriminate E.
Qed.
Lemma regs_named : forall r l s, In (r, l) regs -> In s l -> gp_named s r /\ r <> 0.
Proof.
  intros r l s H K.
  assert (T : forallb (fun e => existsb (fun f => Nat.eqb (fst e) (fst f) && forallb (fun x => existsb (String.eqb x) (snd f)) (snd e)) gp_names && negb (Nat.eqb (fst e) 0)) regs = true)
    by (vm_compute; reflexivity).
  rewrite forallb_forall in T. specialize (T _ H). apply andb_true_iff in T as [T Z]. cbn [fst snd] in *. apply existsb_exists in T as [[r' l'] [I T]].
  apply andb_true_iff in T as [E T]. cbn [fst snd] in *. apply Nat.eqb_eq in E. subst r'. rewrite forallb_forall in T. specialize (T _ K).
  apply existsb_exists in T as [x [J X]]. apply String.eqb_eq in X. subst x. split; [exists l'; auto|]. intros ->. discriminate Z.
Qed.
Lemma ident_ok : forall s r, ident_reg s = Ok r -> r <> 0 /\ (gp r = true -> gp_named (bare s) r).
Proof.
  intros s r H. unfold ident_reg in H. rewrite skip_bare in H. destruct (ident_gp_reg (bare s)) as [|k] eqn:E.
  - assert (A : forall n, XMM0 <= n -> n <> 0 /\ (gp n = true -> gp_named (bare s) n)).
    { intros n L. split; [unfold XMM0 in L; lia|]. intros G. unfold gp, within in G. apply andb_true_iff in G as [_ G]. apply Nat.leb_le in G. unfold XMM0, SP in *. lia. }
    assert (B : exists n, XMM0 <= n /\ Ok r = Ok n).
    { destruct (bare s) as [|a [|b [|c t]]]; try discriminate H;
        (destruct a as [[] [] [] [] [] [] [] []]; try discriminate H); (destruct b as [[] [] [] [] [] [] [] []]; try discriminate H);
        try (injection H as <-; eexists; split; [|reflexivity]; unfold XMM0, ST0; lia);
        (destruct c as [[] [] [] [] [] [] [] []]; try discriminate H); injection H as <-; eexists; (split; [|reflexivity]); unfold XMM0, ST0; lia. }
    destruct B as [n [L Q]]. injection Q as ->. apply A. exact L.
  - injection H as <-. unfold ident_gp_reg in E. destruct (find _ regs) as [[r l]|] eqn:F; [|discriminate E]. subst r. apply find_some in F as [I F].
    cbn [snd] in F. apply existsb_exists in F as [x [J X]]. apply String.eqb_eq in X. subst x. destruct (regs_named _ _ _ I J). auto.
Qed.
Lemma one_in : forall l a, one l a = true -> In a l.
Proof. intros l a H. unfold one in H. apply existsb_exists in H as [x [I E]]. apply Ascii.eqb_eq in E. subst x. exact I. Qed.
Lemma letter_class : forall o l r, letter o (one l) -> (forall a, In a l -> class a r = true) -> letter o (fun a => class a r).
Proof. intros o l r [a [I O]] H. exists a. split; [exact I|]. apply H. apply one_in. exact O. Qed.
Lemma gp_class : forall o r, letter o (one Lgp) -> gp r = true -> letter o (fun a => class a r).
Proof. intros o r H G. apply letter_class with (1 := H). intros a [<-|[<-|[<-|[<-|[]]]]]; cbn [class]; rewrite ?G; reflexivity. Qed.
Lemma fp_class : forall o r, letter o (one Lfp) -> xmm r = true -> letter o (fun a => class a r).
Proof. intros o r H G. apply letter_class with (1 := H). intros a [<-|[<-|[<-|[]]]]; cbn [class]; rewrite ?G, ?orb_true_r; reflexivity. Qed.
Lemma x87_class : forall o r, letter o (one ["f"%char]) -> st r = true -> letter o (fun a => class a r).
Proof. intros o r H G. apply letter_class with (1 := H). intros a [<-|[]]; exact G. Qed.
Lemma low_class : forall r, r <> 0 -> r < REG_END -> gp r = true \/ xmm r = true \/ st r = true.
Proof.
  intros r Z L. unfold gp, xmm, st, within, REG_END, AX, SP, XMM0, ST0 in *. rewrite !andb_true_iff, !Nat.leb_le. lia.
Qed.
Lemma no_reads : forall o f', letters no_flags false (con o) = Ok f' -> reads no_flags f' false (con o).
Proof. intros o f' H. apply letters_ok. exact H. Qed.
Lemma wider_refl : forall u, wider u u. Proof. intros u. split; auto. Qed.
Lemma flag_ok : forall s f, flag_cc s = Some f -> s = String.append "=@cc" f.
Proof.
  intros s f H. destruct s as [|a [|b [|c [|d t]]]]; cbn in H; try discriminate H;
    try (destruct a as [[] [] [] [] [] [] [] []]; discriminate H);
    try (destruct a as [[] [] [] [] [] [] [] []]; try discriminate H; destruct b as [[] [] [] [] [] [] [] []]; discriminate H);
    try (destruct a as [[] [] [] [] [] [] [] []]; try discriminate H; destruct b as [[] [] [] [] [] [] [] []]; try discriminate H; destruct c as [[] [] [] [] [] [] [] []]; discriminate H).
  destruct a as [[] [] [] [] [] [] [] []]; try discriminate H; destruct b as [[] [] [] [] [] [] [] []]; try discriminate H;
    destruct c as [[] [] [] [] [] [] [] []]; try discriminate H; destruct d as [[] [] [] [] [] [] [] []]; try discriminate H. injection H as <-. reflexivity.
Qed.
Definition P (os : list operand) (s : state) : Prop := forall j a, nth_error (ops s) j = Some a -> o_reg a <> 0 -> pinned os (o_src a).

Lemma constraint_ok : forall os D s i s', Inv os D s -> ~ D i -> asm_constraint s i = Ok s' ->
  Inv os (fun j => j = i \/ D j) s' /\ (P os s -> P os s') /\ wider (used s) (used s').
Proof.
  intros os D s i s' V ND H. unfold asm_constraint in H. destruct (nth_error (ops s) i) as [a|] eqn:Hi; [|discriminate H].
  assert (Ka : o_kind a = KNull) by (destruct (o_kind a) eqn:K; [reflexivity|exfalso; apply ND; apply (v_done _ _ _ V _ _ Hi); rewrite K; discriminate..]).
  assert (Ra : o_reg a = 0) by (apply (v_reg _ _ _ V _ _ Hi); rewrite Ka; reflexivity).
  pose proof (nth_lt _ _ _ _ Hi) as Li. pose proof (inv_src _ _ _ _ _ V Hi) as Hs.
  assert (PSET : forall b u, o_reg b = 0 -> P os s -> P os (State (set_nth i b (ops s)) u)).
  { intros b u Z HP j c Hj R. cbn [ops] in Hj. apply nth_set in Hj as [[-> ->]|[N Hj]]; [contradiction|eauto]. }
  destruct (flag_cc (fst (o_src a))) as [fl|] eqn:FC.
  { injection H as <-. split; [|split; [apply PSET; exact Ra|apply wider_refl]].
    apply inv_set with a; auto; cbn [place o_kind o_reg o_src o_match]; try discriminate.
    - apply wider_refl.
    - rewrite Ra. congruence.
    - rewrite Ra. unfold REG_END; lia.
    - intros _. apply flag_ok. exact FC. }
  bi H. rename a0 into f. pose proof (no_reads _ _ E) as RD.
  set (b := Op (o_src a) (o_kind a) (o_match a) (o_reg a) (f_mem f) (f_gp f) (f_fp f) (f_x87 f) (f_early f) (f_hb f) (f_leg f) (f_free f)) in *.
  assert (DONE : forall k, placed k = false \/ k = KMem -> k <> KNull -> good (ops s) (place b k (o_reg b)) -> Ok (State (set_nth i (place b k (o_reg b)) (ops s)) (used s)) = Ok s' ->
    Inv os (fun j => j = i \/ D j) s' /\ (P os s -> P os s') /\ wider (used s) (used s')).
  { intros k PK NK G X. injection X as <-. split; [|split; [apply PSET; exact Ra|apply wider_refl]].
    apply inv_set with a; auto; cbn [place o_kind o_reg o_src o_match b]; try congruence.
    - apply wider_refl.
    - rewrite Ra. unfold REG_END; lia. }
  destruct RD as [R1 R2 R3 R4 R5 R6 R7 R8 R9 R10 R11 R12].
  assert (EXL : forall l, (exists c, In c (con (o_src a)) /\ one l c = true) -> letter (o_src a) (one l)) by (intros l [c [I O]]; exists c; auto).
  destruct (if f_num f && a_int (snd (o_src a)) then a_const (snd (o_src a)) else None) as [v|] eqn:NUM.
  { apply (DONE (KNum v)); auto; [discriminate|]. destruct (f_num f && a_int (snd (o_src a))) eqn:NI; [|discriminate NUM]. apply andb_true_iff in NI as [N1 N2].
    destruct (R7 N1) as [X|[c [I O]]]; [discriminate X|]. unfold good. cbn [loc_of place o_kind o_src b].
    assert (O' : one ["n"; "i"; "g"; "X"]%char c = true \/ one ["I"; "J"; "K"; "L"; "M"; "N"; "O"; "P"]%char c = true).
    { apply one_in in O. repeat (destruct O as [<-|O]; [vm_compute; auto|]). destruct O. }
    split; [exact N2|]. split; [exact NUM|]. destruct O' as [O'|O'].
    - right. exists c. split; [exact I|]. apply one_in in O'. destruct O' as [<-|[<-|[<-|[<-|[]]]]]; reflexivity.
    - left. exists c. split; [exact I|exact O']. }
  clear NUM. destruct (f_sym f) eqn:SY.
  { apply (DONE KSym); auto; [discriminate|]. destruct (R8 eq_refl) as [X|[c [I O]]]; [discriminate X|]. exists c. split; [exact I|]. apply one_in in O as [<-|[]]. reflexivity. }
  destruct (f_mem f && a_memop (snd (o_src a))) eqn:MM.
  { apply (DONE KMem); auto; [discriminate|]. apply andb_true_iff in MM as [M1 M2]. destruct (R2 M1) as [X|X]; [discriminate X|].
    unfold good. cbn [loc_of place o_kind o_src o_reg b]. rewrite Ra. split; [exact (EXL _ X)|]. split; [auto|]. intros Z; contradiction Z; reflexivity. }
  clear DONE MM. bi H. rename a0 into f1.
  assert (FR : f_idx f1 = f_idx f /\ (f_reg f1 = f_reg f \/ f_reg f = 0) /\
    (f_reg f1 = 0 -> a_var (snd (o_src a)) = None) /\ (f_reg f1 <> 0 -> f_reg f1 < REG_END ->
      letter (o_src a) (fun c => class c (f_reg f1)) /\ pin0 (o_src a) /\ (forall n, a_var (snd (o_src a)) = Some n -> gp (f_reg f1) = true -> gp_named (bare n) (f_reg f1)))).
  { destruct (a_var (snd (o_src a))) as [n|] eqn:AV.
    - bi E0. rename a0 into r. apply ident_ok in E1 as [R0 RN]. destruct ((gp r && negb (f_gp f)) || (xmm r && negb (f_fp f)) || (st r && negb (f_x87 f))) eqn:MIS; [discriminate E0|].
      apply orb_false_iff in MIS as [MIS M3]. apply orb_false_iff in MIS as [M1 M2].
      apply fixed_ok in E0 as [-> FX]. cbn [f_idx f_reg]. split; [reflexivity|]. split; [destruct FX; auto|]. split; [congruence|]. intros _ L. split.
      + destruct (low_class r R0 L) as [G|[G|G]]; rewrite G in *; cbn [andb] in *.
        * apply gp_class; [|exact G]. apply EXL. destruct (R3 ltac:(destruct (f_gp f); auto)) as [X|X]; [discriminate X|exact X].
        * apply fp_class; [|exact G]. apply EXL. destruct (R9 ltac:(destruct (f_fp f); auto)) as [X|X]; [discriminate X|exact X].
        * apply x87_class; [|exact G]. apply EXL. destruct (R10 ltac:(destruct (f_x87 f); auto)) as [X|X]; [discriminate X|exact X].
      + split; [right; rewrite AV; discriminate|]. intros n0 X. injection X as <-. exact RN.
    - injection E0 as <-. split; [reflexivity|]. split; [auto|]. split; [reflexivity|]. intros Z _. destruct R11 as [[X _]|[[c [I [C O]]] _]]; [cbn in X; contradiction|].
      split; [exists c; auto|]. split; [left; exists c; auto|]. discriminate. }
  destruct FR as [FI [FG [FV FP]]].
  assert (EA : f_early f = early (o_src a)) by (rewrite R1; reflexivity).
  assert (FB : f_reg f1 = 0 -> fact b).
  { intros Z. constructor; cbn [b o_src o_early o_mem o_gp o_fp o_x87 o_hb o_leg o_free]; auto.
    - intros X. apply EXL. destruct (R2 X) as [Y|Y]; [discriminate Y|exact Y].
    - intros X. apply EXL. destruct (R3 X) as [Y|Y]; [discriminate Y|exact Y].
    - intros X. apply EXL. destruct (R9 X) as [Y|Y]; [discriminate Y|exact Y].
    - intros X. apply EXL. destruct (R10 X) as [Y|Y]; [discriminate Y|exact Y].
    - intros X. apply EXL. destruct (R4 X) as [Y|Y]; [discriminate Y|exact Y].
    - intros X. apply EXL. destruct (R5 X) as [Y|Y]; [discriminate Y|exact Y].
    - intros X. apply EXL. destruct (R6 X) as [Y|Y]; [discriminate Y|exact Y]. }
  destruct (Nat.eqb (f_reg f1) 0) eqn:RZ; cbn [negb] in H.
  - apply Nat.eqb_eq in RZ.
    assert (V1 : Inv os (fun j => j = i \/ D j) (State (set_nth i b (ops s)) (used s))).
    { apply inv_set with a; auto; cbn [b o_kind o_reg o_src o_match]; try congruence.
      - apply wider_refl.
      - rewrite Ra. unfold REG_END; lia. }
    destruct (f_idx f1) as [k|] eqn:IX.
    + destruct (nth_error (set_nth i b (ops s)) k) as [c|] eqn:Hk; [|discriminate H]. injection H as <-. split; [|split; [|apply wider_refl]].
      * apply (inv_match os (fun j => j = i \/ D j) (State (set_nth i b (ops s)) (used s)) i (o_src a) k c); auto.
        destruct (R12 k ltac:(congruence)) as [X|[_ X]]; [exact X|discriminate X].
      * intros HP j d Hj R. cbn [ops] in Hj. apply nth_set in Hj as [[-> ->]|[N Hj]]; [cbn [with_match o_src o_reg] in *; exact (PSET b (used s) Ra HP _ _ Hk R)|exact (PSET b (used s) Ra HP _ _ Hj R)].
    + injection H as <-. split; [exact V1|]. split; [apply PSET; exact Ra|apply wider_refl].
  - apply Nat.eqb_neq in RZ.
    assert (LOW : f_reg f1 < REG_END).
    { unfold asm_set_use in H. cbn [place o_reg b] in H. destruct (f_reg f1 <? REG_END) eqn:X; [apply Nat.ltb_lt in X; exact X|discriminate H]. }
    destruct (FP RZ LOW) as [F1 [F2 F3]].
    destruct (set_use_ok os D s i a (place b KReg (f_reg f1)) s') as [G1 G2 G3 G4 G5]; auto; [split; [left; exact F1|exact F3]|].
    split; [exact G1|]. split; [|exact G4]. intros HP j c Hj R. destruct (Nat.eq_dec j i) as [->|N].
    + rewrite G2 in Hj. injection Hj as <-. left. exact F2.
    + destruct (G5 _ _ Hj N) as [X|[d [X [_ [-> [Y _]]]]]]; [exact (HP _ _ X R)|]. right. exists i, (o_src a). auto.
Qed.
