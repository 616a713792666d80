(** Proofs for AsmModel.v: the places of operands. *)
From Coq Require Import Ascii String ZArith List Bool Lia Arith.
From Verif Require Import AsmSpec AsmModel AsmProofs AsmInv AsmPhase AsmAlloc.
Import ListNotations.
Local Open Scope string_scope.
Local Open Scope nat_scope.
Local Open Scope list_scope.

Section Planned.
Variables (os : list operand) (C : list nat) (p : plan) (s : state) (n : nat).
Hypothesis PL : planned os C p s n.
Let V : Inv os all s := l_inv _ _ _ (w_alloc _ _ _ _ _ PL).

Lemma p_length : length (places p) = length os.
Proof. unfold places. rewrite map_length, <- (w_ops _ _ _ _ _ PL), <- (map_length o_src), (v_src _ _ _ V). reflexivity. Qed.
Lemma p_nth : forall i l, nth_error (places p) i = Some l -> exists a, nth_error (ops s) i = Some a /\ l = loc_of a.
Proof.
  intros i l H. unfold places in H. rewrite <- (w_ops _ _ _ _ _ PL) in H. rewrite nth_error_map in H. destruct (nth_error (ops s) i) as [a|]; [|discriminate H].
  injection H as <-. exists a. auto.
Qed.
Lemma p_loc : forall i a, nth_error (ops s) i = Some a -> nth_error (places p) i = Some (loc_of a).
Proof. intros i a H. unfold places. rewrite <- (w_ops _ _ _ _ _ PL). apply map_nth_error. exact H. Qed.
Lemma in_reg_ok : forall i a, nth_error (ops s) i = Some a -> in_reg (loc_of a) = o_reg a.
Proof.
  intros i a H. unfold loc_of. destruct (o_kind a) eqn:K; try reflexivity; cbn [in_reg]; symmetry; apply (v_reg _ _ _ V) with i; auto; rewrite K; reflexivity.
Qed.
Lemma p_permits : forall i o l, nth_error os i = Some o -> nth_error (places p) i = Some l ->
  permits (places p) o l \/
  (exists v, l = Imm v /\ a_int (snd o) = true /\ a_const (snd o) = Some v /\ ranged o) \/
  (exists m r, l = Reg r /\ In m (nums o) /\ nth_error (places p) m = Some (Mem r)).
Proof.
  intros i o l Ho Hl. apply p_nth in Hl as [a [Ha ->]]. pose proof (inv_src _ _ _ _ _ V Ha) as Hs. rewrite Ho in Hs. injection Hs as ->.
  pose proof (v_good _ _ _ V _ _ Ha (w_all _ _ _ _ _ PL _ _ Ha)) as G. unfold good in G. destruct (loc_of a) as [v| |r|r|f].
  - destruct G as [G1 [G2 [G3|G3]]]; [right; left; exists v; auto|left; cbn [permits]; auto].
  - left. exact G.
  - left. exact G.
  - destruct G as [[G|[m [b [M [B [Pb R]]]]]] G2]; [left; split; [left; exact G|exact G2]|]. pose proof (p_loc _ _ B) as LB. unfold loc_of in LB.
    destruct (o_kind b) eqn:K; try discriminate Pb; rewrite R in LB; [right; right; exists m, r; auto|left]. split; [right; exists m; auto|exact G2].
  - left. exact G.
Qed.
Lemma p_apart : forall i j o q, i <> j -> nth_error os i = Some o -> nth_error os j = Some q -> ~ (pinned os o /\ pinned os q) -> apart os (places p) i j.
Proof.
  intros i j o q N Ho Hq NP l m Hl Hm Z E. apply p_nth in Hl as [a [Ha ->]]. apply p_nth in Hm as [c [Hc ->]].
  pose proof (inv_src _ _ _ _ _ V Ha) as Hs. rewrite Ho in Hs. injection Hs as ->. pose proof (inv_src _ _ _ _ _ V Hc) as Hs'. rewrite Hq in Hs'. injection Hs' as ->.
  rewrite (in_reg_ok _ _ Ha) in Z, E. rewrite (in_reg_ok _ _ Hc) in E.
  destruct (l_apart _ _ _ (w_alloc _ _ _ _ _ PL) _ _ _ _ N Ha Hc Z E ltac:(auto)) as [[S1 S2]|[S1 S2]]; [left|right].
  - exists (o_src a), (o_src c), (loc_of a). repeat split; auto. apply p_loc. exact Ha.
  - exists (o_src c), (o_src a), (loc_of c). repeat split; auto. apply p_loc. exact Hc.
Qed.
Lemma p_clob : forall i o l, nth_error os i = Some o -> nth_error (places p) i = Some l -> in_reg l <> 0 -> ~ pinned os o -> ~ In (in_reg l) C.
Proof.
  intros i o l Ho Hl Z NP. apply p_nth in Hl as [a [Ha ->]]. pose proof (inv_src _ _ _ _ _ V Ha) as Hs. rewrite Ho in Hs. injection Hs as ->.
  rewrite (in_reg_ok _ _ Ha) in *. destruct (l_clob _ _ _ (w_alloc _ _ _ _ _ PL) _ _ Ha Z); [contradiction|assumption].
Qed.
End Planned.

(** * Names *)
Definition ident_bare (s : string) : res nat :=
  match ident_gp_reg s with
  | S r => Ok (S r)
  | O =>
      match s with
      | String "x" (String "m" (String "m" n)) | String "y" (String "m" (String "m" n)) | String "z" (String "m" (String "m" n)) => Ok (XMM0 + strtoul 0 n)
      | String "s" (String "t" (String "(" n)) => Ok (ST0 + Nat.min (strtoul 0 n) 7)
      | String "s" (String "t" _) => Ok ST0
      | _ => Err
      end
  end.
Lemma named_ident : forall s r, named (bare s) r -> ident_reg s = Ok r /\ s <> "cc" /\ s <> "memory".
Proof.
  intros s r [l [L I]]. assert (A : ident_bare (bare s) = Ok r /\ bare s <> "cc" /\ bare s <> "memory").
  { cbn [gp_names xmm_names app In] in L.
    repeat (destruct L as [L|L]; [injection L as <- <-; cbn [In] in I; repeat (destruct I as [<-|I]; [split; [vm_compute; reflexivity|split; discriminate]|]); destruct I|]). destruct L. }
  destruct A as [A [B C]]. split; [unfold ident_reg; rewrite skip_bare; exact A|]. split; intros ->; [apply B|apply C]; reflexivity.
Qed.
Lemma places_permit : forall outs ins cl p, no_digits (outs ++ ins) -> prepare outs ins cl = Ok p -> length (places p) = length (outs ++ ins) /\
  forall i o l, nth_error (outs ++ ins) i = Some o -> nth_error (places p) i = Some l ->
  permits (places p) o l \/
  (exists v, l = Imm v /\ a_int (snd o) = true /\ a_const (snd o) = Some v /\ ranged o) \/
  (exists m r, l = Reg r /\ In m (nums o) /\ nth_error (places p) m = Some (Mem r)).
Proof. intros outs ins cl p WF H. destruct (prepare_ok _ _ _ _ WF H) as [u [s [_ PL]]]. split; [apply (p_length _ _ _ _ _ PL)|apply (p_permits _ _ _ _ _ PL)]. Qed.
Lemma places_apart : forall outs ins cl p i j o q, no_digits (outs ++ ins) -> prepare outs ins cl = Ok p -> i <> j ->
  nth_error (outs ++ ins) i = Some o -> nth_error (outs ++ ins) j = Some q -> ~ (pinned (outs ++ ins) o /\ pinned (outs ++ ins) q) -> apart (outs ++ ins) (places p) i j.
Proof. intros outs ins cl p i j o q WF H. destruct (prepare_ok _ _ _ _ WF H) as [u [s [_ PL]]]. apply (p_apart _ _ _ _ _ PL). Qed.
Lemma st_range : forall r, st r = true -> ST0 <= r <= ST0 + 7.
Proof. intros r H. unfold st, within in H. apply andb_true_iff in H as [A B]. apply Nat.leb_le in A, B. lia. Qed.
Lemma places_clobber : forall outs ins cl p i o l c r, no_digits (outs ++ ins) -> prepare outs ins cl = Ok p ->
  nth_error (outs ++ ins) i = Some o -> nth_error (places p) i = Some l -> ~ pinned (outs ++ ins) o -> In c cl -> named (bare c) r -> r <> SP -> in_reg l <> r.
Proof.
  intros outs ins cl p i o l c r WF H Ho Hl NP I NM NS R. destruct (prepare_ok _ _ _ _ WF H) as [u [s [CB PL]]].
  destruct (clob_ok _ _ _ CB eq_refl) as [_ [_ K]]. destruct (named_ident _ _ NM) as [ID [N1 N2]].
  assert (RR : 0 < r < 33).
  { destruct NM as [x [L _]]. cbn [gp_names xmm_names app In] in L. repeat (destruct L as [L|L]; [injection L as <- _; lia|]). destruct L. }
  apply (p_clob _ _ _ _ _ PL i o l Ho Hl); [lia|exact NP|]. rewrite R. apply (K c r I N1 N2 ID).
  apply orb_false_iff. split; [apply Nat.eqb_neq; exact NS|]. destruct (st r) eqn:S; [|reflexivity]. apply st_range in S. unfold ST0 in S. lia.
Qed.
