From Coq Require Import ZArith List Bool Lia.
From Verif Require Import Base BitLemmas X86 Sse MemSpec MemModel MemProofs FrameModel CallSpec CallModel CallProofs.
Import ListNotations.
Local Open Scope Z_scope.
Local Opaque natural.

(** What the code believes about eightbyte [e]. *)
Definition fpe (t : aty) (e : nat) : bool := only_fp (8 * Z.of_nat e) (8 * Z.of_nat e + 8) (leaves t 0).
Definition code_cls (t : aty) : list cls :=
  match t with
  | ALdouble => [X87; X87up]
  | _ => if 16 <? asize t then [Memory]
         else map (fun e => if fpe t e then Sse else Integer) (seq 0 (Z.to_nat ((asize t + 7) / 8)))
  end.

Lemma has1 : forall n a ms, natural (ARec n a ms) -> has_flonum1 (ARec n a ms) = Ok (fpe (ARec n a ms) 0).
Proof.
  intros n a ms N. unfold has_flonum1, fpe. change (Z.of_nat 0) with 0. change 0 with (8 * 0) at 1. change 8 with (8 * 0 + 8) at 2.
  apply hf_ok; try assumption; try lia; try discriminate.
  - apply natural_rec in N. cbn [asize]. lia.
  - apply Z.mod_0_l. pose proof (pow2_pos _ (align_pow2 _ N)). lia.
Qed.
Lemma has2 : forall n a ms, natural (ARec n a ms) -> has_flonum2 (ARec n a ms) = Ok (fpe (ARec n a ms) 1).
Proof.
  intros n a ms N. unfold has_flonum2, fpe. change (Z.of_nat 1) with 1. change (has_flonum 8 16) with (has_flonum (8 * 1) (8 * 1 + 8)).
  apply hf_ok; try assumption; try lia; try discriminate.
  - apply natural_rec in N. cbn [asize]. lia.
  - apply Z.mod_0_l. pose proof (pow2_pos _ (align_pow2 _ N)). lia.
Qed.

Lemma chunks1 : forall s, 1 <= s <= 8 -> Z.to_nat ((s + 7) / 8) = 1%nat.
Proof. intros s H. replace ((s + 7) / 8) with 1; [reflexivity|]. apply Z.div_unique with (s - 1); lia. Qed.
Lemma chunks2 : forall s, 9 <= s <= 16 -> Z.to_nat ((s + 7) / 8) = 2%nat.
Proof. intros s H. replace ((s + 7) / 8) with 2; [reflexivity|]. apply Z.div_unique with (s - 9); lia. Qed.

(** ** The code's classes are those of the ABI *)
Lemma eightbyte_ok : forall e l, Forall (fun p => natural (snd p) /\ is_scalar (snd p) = true /\ snd p <> ALdouble) l ->
  eightbyte l e = if existsb (fun p => overlaps p (8 * Z.of_nat e) (8 * Z.of_nat e + 8)) l
                  then if only_fp (8 * Z.of_nat e) (8 * Z.of_nat e + 8) l then Sse else Integer else NoClass.
Proof.
  intros e. induction l as [|[o t] r IH]; intros F; [reflexivity|].
  inversion F as [|? ? (N & Sc & L) Fr]; subst. specialize (IH Fr). cbn [snd] in *.
  cbn [eightbyte fold_right]. change (fold_right (fun p c => merge (leaf_cls p e) c) NoClass r) with (eightbyte r e).
  rewrite IH. cbn [existsb only_fp forallb]. unfold leaf_cls.
  change (forallb (fun p => negb (overlaps p (8 * Z.of_nat e) (8 * Z.of_nat e + 8)) || is_fp (snd p)) r)
    with (only_fp (8 * Z.of_nat e) (8 * Z.of_nat e + 8) r).
  destruct (overlaps (o, t) (8 * Z.of_nat e) (8 * Z.of_nat e + 8)); cbn [orb andb negb snd].
  2:{ destruct (existsb _ r); [destruct (only_fp _ _ r)|]; reflexivity. }
  destruct t; try discriminate; try (exfalso; apply L; reflexivity); try (destruct N);
    destruct (existsb _ r) eqn:EX, (only_fp _ _ r) eqn:OF; try reflexivity; cbn [is_fp andb]; 
    exfalso; rewrite <- not_true_iff_false in EX; apply EX.
  all: unfold only_fp in OF; clear - OF; induction r as [|q r IH]; [discriminate|]; cbn [forallb existsb] in *;
    destruct (overlaps q _ _); [reflexivity|]; cbn [negb orb andb] in *; apply IH, OF.
Qed.

Lemma aligned_leaves : forall t, natural t -> existsb unaligned (leaves t 0) = false.
Proof.
  intros t N. apply not_true_iff_false. intros H. apply existsb_exists in H. destruct H as (p & Ip & U).
  pose proof (leaves_ok t 0 N) as L. rewrite Forall_forall in L. specialize (L p Ip). destruct L as (_ & _ & _ & _ & A).
  unfold unaligned in U. rewrite A in U; [discriminate|].
  apply Z.mod_0_l. pose proof (pow2_pos _ (align_pow2 _ N)). lia.
Qed.

Lemma classes_ok : forall t, argument t -> (no_ldouble t /\ (asize t <= 16 -> covered t)) \/ t = ALdouble -> sysv_classes t = code_cls t.
Proof.
  intros t (N & Sz & _) [[NL CV]| ->]; [|reflexivity].
  unfold sysv_classes. rewrite aligned_leaves by assumption.
  assert (HL : t <> ALdouble). { intros ->. apply (NL (0, ALdouble)); [left; reflexivity|reflexivity]. }
  assert (E : code_cls t = if 16 <? asize t then [Memory]
         else map (fun e => if fpe t e then Sse else Integer) (seq 0 (Z.to_nat ((asize t + 7) / 8)))).
  { destruct t; try reflexivity. exfalso; apply HL; reflexivity. }
  rewrite E. clear E. destruct (Z.ltb_spec 16 (asize t)); cbn [orb]; [reflexivity|].
  specialize (CV H).
  assert (M : map (eightbyte (leaves t 0)) (seq 0 (Z.to_nat ((asize t + 7) / 8))) =
              map (fun e => if fpe t e then Sse else Integer) (seq 0 (Z.to_nat ((asize t + 7) / 8)))).
  { apply map_ext_in. intros e He. apply in_seq in He.
    rewrite eightbyte_ok.
    2:{ apply Forall_forall. intros p Ip. pose proof (leaves_ok t 0 N) as L. rewrite Forall_forall in L.
        specialize (L p Ip). destruct L as (_ & _ & A & B & _). split; [exact B|]. split; [exact A|]. apply NL, Ip. }
    destruct (CV (Z.of_nat e)) as (p & Ip & O); [lia| |].
    { assert (Z.of_nat e < (asize t + 7) / 8) by lia.
      pose proof (Z.mul_div_le (asize t + 7) 8 ltac:(lia)). lia. }
    replace (existsb _ (leaves t 0)) with true; [reflexivity|]. symmetry. apply existsb_exists. exists p. auto. }
  rewrite M.
  destruct (Z.le_gt_cases (asize t) 8).
  - rewrite chunks1 by lia. cbn [seq map]. destruct (fpe t 0); reflexivity.
  - rewrite chunks2 by lia. cbn [seq map]. destruct (fpe t 0), (fpe t 1); reflexivity.
Qed.

(** ** Registers *)
Lemma argreg_ok : forall gp, (gp < 6)%nat -> exists r, argreg gp = Ok r /\ skipn gp int_regs = r :: skipn (S gp) int_regs.
Proof. intros gp H. do 6 (destruct gp as [|gp]; [eexists; split; reflexivity|]). lia. Qed.
Lemma sse_skip : forall fp, (fp < 8)%nat -> skipn fp sse_regs = fp :: skipn (S fp) sse_regs.
Proof. intros fp H. do 8 (destruct fp as [|fp]; [reflexivity|]). lia. Qed.
Lemma int_len : forall gp, length (skipn gp int_regs) = (6 - gp)%nat.
Proof. intros. rewrite skipn_length. reflexivity. Qed.
Lemma sse_len : forall fp, length (skipn fp sse_regs) = (8 - fp)%nat.
Proof. intros. rewrite skipn_length. reflexivity. Qed.

Definition ni (t : aty) : nat := count Integer (code_cls t).
Definition ns (t : aty) : nat := count Sse (code_cls t).
(** The argument goes to the stack. *)
Definition stacked (t : aty) (gp fp : nat) : bool :=
  in_memory (code_cls t) || (6 - gp <? ni t)%nat || (8 - fp <? ns t)%nat.
(** The counters as an index. *)
Definition ix (z m : Z) : nat := Z.to_nat (Z.min z m).

Lemma cls_rec : forall n a ms, 1 <= n <= 16 ->
  code_cls (ARec n a ms) = (if fpe (ARec n a ms) 0 then Sse else Integer) ::
    if 8 <? n then [if fpe (ARec n a ms) 1 then Sse else Integer] else [].
Proof.
  intros n a ms H. unfold code_cls. cbn [asize]. destruct (Z.ltb_spec 16 n); [lia|].
  destruct (Z.ltb_spec 8 n); [rewrite chunks2 by lia|rewrite chunks1 by lia]; reflexivity.
Qed.
Lemma cls_gp : forall u n, natural (AGp u n) -> code_cls (AGp u n) = [Integer].
Proof. intros u n N. apply nat_gp in N. destruct N as [->|[->|[->| ->]]]; reflexivity. Qed.

Lemma to_regs_ok : forall t s, argument t -> 0 <= cc_gp s -> 0 <= cc_fp s ->
  exists g f x, 0 <= g /\ 0 <= f /\
  if stacked t (ix (cc_gp s) 6) (ix (cc_fp s) 8)
  then to_regs t s = Ok (None, (g, f)) /\ ix g 6 = ix (cc_gp s) 6 /\ ix f 8 = ix (cc_fp s) 8
  else to_regs t s = Ok (Some (g, f), x) /\
       ix g 6 = (ix (cc_gp s) 6 + ni t)%nat /\ ix f 8 = (ix (cc_fp s) 8 + ns t)%nat.
Proof.
  intros t [gp fp st al] (N & Sz & Ar) Hg Hf. cbn [cc_gp cc_fp] in *. unfold stacked, ni, ns.
  destruct t as [u n| | | |n|n a ms|n b]; cbn [to_regs cc_gp cc_fp]; unfold GP_MAX, FP_MAX in *.
  - rewrite (cls_gp _ _ N). cbn [in_memory existsb cls_eqb orb count filter length].
    destruct (Z.ltb_spec gp 6).
    + exists (gp + 1), fp, (gp + 1, fp). split; [lia|]. split; [lia|].
      destruct (Nat.ltb_spec (6 - ix gp 6) 1); [unfold ix in *; lia|].
      destruct (Nat.ltb_spec (8 - ix fp 8) 0); [lia|]. cbn [orb]. split; [reflexivity|]. unfold ix; lia.
    + exists (gp + 1), fp, (gp + 1, fp). split; [lia|]. split; [lia|].
      destruct (Nat.ltb_spec (6 - ix gp 6) 1); [|unfold ix in *; lia]. cbn [orb]. split; [reflexivity|]. unfold ix; lia.
  - change (code_cls AFloat) with [Sse]. cbn [in_memory existsb cls_eqb orb count filter length].
    destruct (Z.ltb_spec fp 8).
    + exists gp, (fp + 1), (gp, fp + 1). split; [lia|]. split; [lia|].
      destruct (Nat.ltb_spec (6 - ix gp 6) 0); [unfold ix in *; lia|].
      destruct (Nat.ltb_spec (8 - ix fp 8) 1); [unfold ix in *; lia|]. cbn [orb]. split; [reflexivity|]. unfold ix; lia.
    + exists gp, (fp + 1), (gp, fp + 1). split; [lia|]. split; [lia|].
      destruct (Nat.ltb_spec (6 - ix gp 6) 0); [unfold ix in *; lia|].
      destruct (Nat.ltb_spec (8 - ix fp 8) 1); [|unfold ix in *; lia]. cbn [orb]. split; [reflexivity|]. unfold ix; lia.
  - change (code_cls ADouble) with [Sse]. cbn [in_memory existsb cls_eqb orb count filter length].
    destruct (Z.ltb_spec fp 8).
    + exists gp, (fp + 1), (gp, fp + 1). split; [lia|]. split; [lia|].
      destruct (Nat.ltb_spec (6 - ix gp 6) 0); [unfold ix in *; lia|].
      destruct (Nat.ltb_spec (8 - ix fp 8) 1); [unfold ix in *; lia|]. cbn [orb]. split; [reflexivity|]. unfold ix; lia.
    + exists gp, (fp + 1), (gp, fp + 1). split; [lia|]. split; [lia|].
      destruct (Nat.ltb_spec (6 - ix gp 6) 0); [unfold ix in *; lia|].
      destruct (Nat.ltb_spec (8 - ix fp 8) 1); [|unfold ix in *; lia]. cbn [orb]. split; [reflexivity|]. unfold ix; lia.
  - exists gp, fp, (gp, fp). split; [lia|]. split; [lia|]. cbn [code_cls in_memory existsb cls_eqb orb]. auto.
  - destruct N.
  - cbn [asize] in Sz. destruct (Z.leb_spec n 16).
    2:{ exists gp, fp, (gp, fp). split; [lia|]. split; [lia|].
        unfold code_cls. cbn [asize]. destruct (Z.ltb_spec 16 n); [|lia]. cbn [in_memory existsb cls_eqb orb]. auto. }
    rewrite has1 by assumption. cbn [bind]. rewrite cls_rec by lia.
    destruct (Z.ltb_spec 8 n).
    + rewrite has2 by assumption. cbn [bind].
      destruct (fpe (ARec n a ms) 0), (fpe (ARec n a ms) 1);
        cbn [b2z negb andb in_memory existsb cls_eqb orb count filter length];
        cbn [Z.add Z.eqb Pos.add Pos.succ orb andb];
      match goal with |- context [(gp + ?k <=? 6)] => destruct (Z.leb_spec (gp + k) 6) | _ => idtac end;
      match goal with |- context [(fp + ?k <=? 8)] => destruct (Z.leb_spec (fp + k) 8) | _ => idtac end; cbn [andb];
      match goal with |- context [Ok (Some (?a, ?b), _)] => exists a, b, (gp, fp) | _ => exists gp, fp, (gp, fp) end;
      (split; [lia|]; split; [lia|]);
      match goal with |- context [((?a <? ?b)%nat || (?c <? ?d)%nat)%bool] =>
        destruct (Nat.ltb_spec a b), (Nat.ltb_spec c d); cbn [orb]; try (exfalso; unfold ix in *; lia) end;
      (split; [reflexivity|]; unfold ix in *; lia).
    + cbn [bind].
      destruct (fpe (ARec n a ms) 0);
        cbn [b2z negb andb in_memory existsb cls_eqb orb count filter length];
        cbn [Z.add Z.eqb Pos.add Pos.succ orb andb];
      match goal with |- context [(gp + ?k <=? 6)] => destruct (Z.leb_spec (gp + k) 6) | _ => idtac end;
      match goal with |- context [(fp + ?k <=? 8)] => destruct (Z.leb_spec (fp + k) 8) | _ => idtac end; cbn [andb];
      match goal with |- context [Ok (Some (?a, ?b), _)] => exists a, b, (gp, fp) | _ => exists gp, fp, (gp, fp) end;
      (split; [lia|]; split; [lia|]);
      match goal with |- context [((?a <? ?b)%nat || (?c <? ?d)%nat)%bool] =>
        destruct (Nat.ltb_spec a b), (Nat.ltb_spec c d); cbn [orb]; try (exfalso; unfold ix in *; lia) end;
      (split; [reflexivity|]; unfold ix in *; lia).
  - destruct Ar.
Qed.

(** ** Code *)
Lemma place_chunk_ok : forall f b o gp fp, (f = true -> (fp < 8)%nat) -> (f = false -> (gp < 6)%nat) ->
  exists i, place_chunk f b o gp fp = Ok (i, if f then (gp, S fp) else (S gp, fp)) /\
    forall r, dest i ++ take_regs r (if f then skipn gp int_regs else skipn (S gp) int_regs)
                                    (if f then skipn (S fp) sse_regs else skipn fp sse_regs) =
      take_regs ((if f then Sse else Integer) :: r) (skipn gp int_regs) (skipn fp sse_regs).
Proof.
  intros f b o gp fp H1 H2. unfold place_chunk. destruct f.
  - eexists. split; [reflexivity|]. intros r. cbn [dest take_regs]. rewrite (sse_skip fp) by auto. reflexivity.
  - destruct (argreg_ok gp) as (r & E & K); [auto|]. rewrite E. cbn [bind].
    eexists. split; [reflexivity|]. intros r'. cbn [dest take_regs]. rewrite K. reflexivity.
Qed.
Lemma place_ok : forall t b o gp fp, argument t -> (gp <= 6)%nat -> (fp <= 8)%nat -> stacked t gp fp = false ->
  exists c, place_reg_arg t b o gp fp = Ok (c, ((gp + ni t)%nat, (fp + ns t)%nat)) /\
    flat_map dest c = take_regs (code_cls t) (skipn gp int_regs) (skipn fp sse_regs).
Proof.
  intros t b o gp fp (N & Sz & Ar) Hg Hf Hs.
  unfold stacked, ni, ns in Hs. apply orb_false_elim in Hs. destruct Hs as [Hs S3]. apply orb_false_elim in Hs.
  destruct Hs as [S1 S2]. apply Nat.ltb_ge in S2, S3. unfold ni, ns.
  destruct t as [u n| | | |n|n a ms|n bt]; cbn [place_reg_arg].
  - rewrite (cls_gp _ _ N) in *. cbn [count filter cls_eqb length] in *.
    destruct (argreg_ok gp) as (r & E & K); [lia|]. rewrite E. cbn [bind asize].
    apply nat_gp in N. rewrite Nat.add_0_r, Nat.add_1_r, K.
    destruct N as [->|[->|[->| ->]]]; (eexists; split; [reflexivity|reflexivity]).
  - change (code_cls AFloat) with [Sse] in *. cbn [count filter cls_eqb length] in *.
    rewrite Nat.add_0_r, Nat.add_1_r. rewrite (sse_skip fp) by lia. eexists. split; reflexivity.
  - change (code_cls ADouble) with [Sse] in *. cbn [count filter cls_eqb length] in *.
    rewrite Nat.add_0_r, Nat.add_1_r. rewrite (sse_skip fp) by lia. eexists. split; reflexivity.
  - discriminate S1.
  - destruct N.
  - cbn [asize] in Sz.
    assert (n <= 16). { unfold code_cls in S1. cbn [asize] in S1. destruct (Z.ltb_spec 16 n); [discriminate|lia]. }
    rewrite has1 by assumption. cbn [bind]. rewrite cls_rec in * by lia.
    destruct (Z.ltb_spec 8 n).
    + rewrite has2 by assumption.
      destruct (place_chunk_ok (fpe (ARec n a ms) 0) b o gp fp) as (i1 & E1 & K1).
      1-2: intros F; rewrite F in *; destruct (fpe (ARec n a ms) 1); cbn [count filter cls_eqb length] in *; lia.
      rewrite E1. cbn [bind fst snd].
      destruct (place_chunk_ok (fpe (ARec n a ms) 1) b (8 + o)
         (if fpe (ARec n a ms) 0 then gp else S gp) (if fpe (ARec n a ms) 0 then S fp else fp)) as (i2 & E2 & K2).
      1-2: intros F; rewrite F in *; destruct (fpe (ARec n a ms) 0); cbn [count filter cls_eqb length] in *; lia.
      replace (fst (if fpe (ARec n a ms) 0 then (gp, S fp) else (S gp, fp))) with (if fpe (ARec n a ms) 0 then gp else S gp)
        by (destruct (fpe (ARec n a ms) 0); reflexivity).
      replace (snd (if fpe (ARec n a ms) 0 then (gp, S fp) else (S gp, fp))) with (if fpe (ARec n a ms) 0 then S fp else fp)
        by (destruct (fpe (ARec n a ms) 0); reflexivity).
      rewrite E2. cbn [bind fst snd]. eexists. split.
      * repeat f_equal. destruct (fpe (ARec n a ms) 0), (fpe (ARec n a ms) 1); cbn [count filter cls_eqb length]; f_equal; lia.
      * cbn [flat_map]. rewrite <- K1. f_equal.
        specialize (K2 []). cbn [take_regs] in K2. destruct (fpe (ARec n a ms) 0), (fpe (ARec n a ms) 1); exact K2.
    + destruct (place_chunk_ok (fpe (ARec n a ms) 0) b o gp fp) as (i1 & E1 & K1).
      1-2: intros F; rewrite F in *; cbn [count filter cls_eqb length] in *; lia.
      rewrite E1. cbn [bind fst snd]. eexists. split.
      * repeat f_equal. destruct (fpe (ARec n a ms) 0); cbn [count filter cls_eqb length]; f_equal; lia.
      * cbn [flat_map]. rewrite <- K1. cbn [take_regs]. reflexivity.
  - destruct Ar.
Qed.
